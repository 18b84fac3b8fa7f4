-Q theories Verif

theories/Base.v
theories/Varint.v
theories/WireFmt.v
theories/Utf8.v
theories/Types.v
theories/Ser.v
theories/Spec.v
theories/VarintProofs.v
theories/WireProofs.v
theories/PropWire.v
theories/ValInd.v
theories/SerProofs.v
theories/TypeProofs.v
theories/De.v
theories/EqProofs.v
theories/DeProofs.v
theories/RoundTrip.v
theories/MergeProofs.v
theories/NormProofs.v
theories/Utf8Proofs.v
theories/Hash.v
theories/HashProofs.v
theories/Log.v
theories/LogProofs.v
theories/State.v
theories/StateSpec.v
theories/Coll.v
theories/TreeProofs.v
theories/CohProofs.v
theories/HandleProofs.v
theories/OpProofs.v
theories/ExecProofs.v
theories/ReplayProofs.v
theories/FrameProofs.v
theories/KeepProofs.v
theories/Examples.v
theories/PropSer.v
theories/PropDe.v
theories/PropLog.v
theories/PropReplay.v
theories/PropState.v
theories/PropColl.v
theories/SimProofs.v
theories/PropHist.v
theories/Derive.v
theories/DeriveProofs.v
theories/PropDerive.v
theories/Conc.v
theories/ConcProofs.v
theories/PropConc.v
theories/Peek.v
theories/PeekProofs.v
theories/PropPeek.v
theories/Meta.v
theories/MetaProofs.v
theories/PropMeta.v
theories/CSharp.v
theories/CSharpProofs.v
theories/CSharpSim.v
theories/PropCSharp.v
theories/CSharpSafe.v
theories/CSharpEvo.v
theories/CSharpEvoSim.v
theories/PropClient.v
theories/CsObj.v
theories/ObjSpec.v
theories/ObjProofs.v
theories/PropObj.v
theories/ClientTests.v
theories/Evo.v
theories/EvoProofs.v
theories/EvoBack.v
theories/EvoSim.v
theories/EvoGrow.v
theories/PropEvo.v
theories/RepoTests.v
theories/Gen.v
theories/GenGolden.v
theories/GenTests.v
theories/CsRead.v
theories/CsRun.v
theories/GenSpec.v
theories/GenLex.v
theories/GenParse.v
theories/GenStmt.v
theories/GenMember.v
theories/GenClass.v
theories/GenFile.v
theories/GenEnum.v
theories/GenRun.v
theories/GenStruct.v
theories/GenRunEnum.v
theories/GenWhole.v
theories/Elab.v
theories/ElabProofs.v
theories/PropGen.v
theories/RsGen.v
theories/RsRun.v
theories/RsSpec.v
theories/RsProofs.v
theories/RsStruct.v
theories/RsEnum.v
theories/RsSet.v
theories/PropRs.v
theories/RsDecl.v
theories/RsDeclProofs.v
theories/PropRsDecl.v
theories/PropNames.v
theories/RsMeta.v
theories/RsMetaProofs.v
theories/PropRsMeta.v
theories/RsMetaTests.v
theories/PropShip.v
theories/Stream.v
theories/StreamProofs.v
theories/PropStream.v
theories/Sink.v
theories/SinkProofs.v
theories/PropSink.v
theories/Fail.v
theories/FailProofs.v
theories/PropFail.v
theories/Threads.v
theories/ThreadProofs.v
theories/PropThreads.v
theories/CsThrow.v
theories/ThrowProofs.v
theories/PropThrow.v
theories/PropLib.v
theories/GenDir.v
theories/PropDir.v
theories/RsBounds.v
theories/PropBounds.v
theories/WriterLog.v
theories/PropWriter.v
theories/Weight.v
theories/WeightProofs.v
theories/PropWeight.v
theories/EqBytes.v
theories/PropEqBytes.v
theories/CsTypes.v
theories/PropCsTypes.v
theories/Commute.v
theories/PropCommute.v
theories/PropCompact.v
theories/CsWeight.v
theories/PropCsWeight.v
theories/Json.v
theories/PropJson.v
theories/Depth.v
theories/DepthProofs.v
theories/PropDepth.v
theories/CsCopy.v
theories/PropCsCopy.v
theories/CsWarn.v
theories/PropCsWarn.v
theories/CsNews.v
theories/PropCsNews.v
theories/Dbg.v
theories/PropDbg.v
theories/PropTwice.v
theories/Pos.v
theories/PosProofs.v
theories/PropPos.v
theories/CsPos.v
theories/PropCsPos.v
theories/PropAgain.v
theories/PropLayout.v
theories/PropUses.v
