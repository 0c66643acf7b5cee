-Q theories Verif
theories/Base.v
theories/BaseFacts.v
theories/Types.v
theories/Spec.v
theories/SpecFacts.v
theories/IO.v
theories/IOSpec.v
theories/IOFacts.v
theories/WriterFacts.v
theories/Logic.v
theories/ILInt.v
theories/ILIntFacts.v
theories/Hist.v
theories/HistFacts.v
theories/PILInt.v
theories/PReaders.v
theories/PWriters.v
theories/WLogic.v
theories/Data.v
theories/DataFacts.v
theories/PData.v
theories/Tags.v
theories/Factory.v
theories/SortFacts.v
theories/TagsFacts.v
theories/SameFacts.v
theories/CallFacts.v
theories/PTags.v
theories/FactoryFacts.v
theories/DecodeFacts.v
theories/DeserFacts.v
theories/IntoFacts.v
theories/EngineFacts.v
theories/WireFacts.v
theories/StableFacts.v
theories/FromFacts.v
theories/PDecode.v
theories/PEngine.v
theories/PDict.v
theories/PLimits.v
theories/PUtil.v
theories/Scanner.v
theories/ScannerFacts.v
theories/PScanner.v
theories/PScanLimits.v
theories/Payload.v
theories/PPayload.v
theories/Open.v
theories/KinFacts.v
theories/OpenFacts.v
theories/POpen.v
theories/PPayloadOpen.v
theories/Cost.v
theories/CostFacts.v
theories/PCost.v
theories/ClosedFacts.v
theories/ConsumeFacts.v
theories/DepthFacts.v
theories/Trace.v
theories/TraceFacts.v
theories/PTrace.v
theories/Alloc.v
theories/AllocFacts.v
theories/PAlloc.v
theories/Canon.v
theories/CanonFacts.v
theories/PCanon.v
theories/Ctors.v
theories/PCtors.v
theories/MonoFacts.v
theories/PErrors.v
theories/ParseSpec.v
theories/ParseFacts.v
theories/PParse.v
theories/PScanParse.v
theories/SettleFacts.v
theories/PStream.v
theories/PForeign.v
theories/Machine.v
theories/PMachine.v
theories/OpenMachine.v
theories/POpenMachine.v
theories/Any.v
theories/AnyFacts.v
theories/PAny.v
theories/AnyScan.v
theories/PAnyScan.v
theories/AnyWriter.v
theories/AnyWriterFacts.v
theories/PAnyWriter.v
theories/PInto.v
theories/ConfIO.v
theories/ConfTags.v
theories/Prog.v
theories/ProgFacts.v
theories/ProgWire.v
theories/PLimited.v
theories/PProg.v
theories/AnyProg.v
theories/AnyProgFacts.v
theories/PAnyProg.v
theories/IntoProg.v
theories/IntoProgFacts.v
theories/IntoCallFacts.v
theories/PIntoProg.v
theories/OtherProg.v
theories/OtherProgFacts.v
theories/POther.v
theories/FullProg.v
theories/FullProgFacts.v
theories/PFull.v
theories/SerProg.v
theories/SerProgFacts.v
theories/PSerProg.v
theories/AnyFull.v
theories/AnyFullFacts.v
theories/AnyFullRuns.v
theories/PAnyFull.v
theories/Panic.v
theories/PanicFacts.v
theories/PPanic.v
theories/OpenUtil.v
theories/POpenUtil.v
theories/World.v
theories/WorldFacts.v
theories/PWorld.v
theories/AsAny.v
theories/PAsAny.v
theories/WorldRead.v
theories/WorldReadFacts.v
theories/WorldReadSim.v
theories/WorldReadRuns.v
theories/WorldLog.v
theories/PWorldRead.v
theories/PPanicWorld.v
theories/WorldStack.v
theories/PWorldStack.v
theories/WorldUtil.v
theories/PWorldUtil.v
theories/Work.v
theories/WorkFacts.v
theories/WorkCost.v
theories/PWork.v
