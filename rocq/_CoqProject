-Q theories Verif
theories/Base.v
theories/Types.v
theories/Storage.v
theories/Serializer.v
theories/Serialize.v
theories/Spec.v
theories/ArithFacts.v
theories/StorageFacts.v
theories/StorageHist.v
theories/MemFacts.v
theories/TypeFacts.v
theories/Frame.v
theories/SerFacts.v
theories/SerMain.v
theories/ZstPush.v
theories/SerValue.v
theories/UserPanic.v
theories/SerRoot.v
theories/Moves.v
theories/StorageProps.v
theories/SerProps.v
theories/Corner.v
theories/Misuse.v
theories/PropStorage.v
theories/PropSerialize.v
theories/Demo.v
theories/WitnessSerialize.v
theories/Derive.v
theories/DeriveSpec.v
theories/DeriveFacts.v
theories/PropDerive.v
theories/WitnessDerive.v
theories/BigInt.v
theories/Client.v
theories/ClientSpec.v
theories/ClientFacts.v
theories/PropClient.v
theories/PropExact.v
theories/Repush.v
theories/PropMoves.v
theories/Encode.v
theories/EncodeFacts.v
theories/PropEncode.v
theories/Idem.v
theories/PropIdem.v
theories/PropResume.v
theories/Cost.v
theories/PropCost.v
theories/PropUse.v
theories/Defaults.v
theories/PropDefaults.v
theories/Reuse.v
theories/PropReuse.v
theories/Unsafe.v
theories/PropUnsafe.v
theories/Generics.v
theories/PropGenerics.v
theories/GenStorage.v
theories/GenSpec.v
theories/GenFacts.v
theories/PropGen.v
theories/GenSerializer.v
theories/GenSerSpec.v
theories/GenSerFacts.v
theories/GenSerMain.v
theories/GenSerValue.v
theories/GenSerRoot.v
theories/GenSerAV.v
theories/PropGenSer.v
theories/PropGaps.v
theories/PropTree.v
theories/Prog.v
theories/ProgSer.v
theories/Alone.v
theories/AloneSer.v
theories/Confined.v
theories/Machine.v
theories/MachineFacts.v
theories/Jobs.v
theories/MachineRun.v
theories/PropMachine.v
theories/Build.v
theories/PropValues.v
theories/PropSerWith.v
theories/Depth.v
theories/PropDepth.v
theories/PropRelay.v
theories/Record.v
theories/PropRecord.v
theories/ProgClient.v
theories/ClientJobs.v
theories/PropClients.v
theories/Load.v
theories/PropLoad.v
theories/Mixed.v
theories/MixedFacts.v
theories/PropMixed.v
theories/MixedValid.v
theories/PropMixedValue.v
theories/Source.v
theories/PropSource.v
theories/PropRecordMem.v
theories/PropMixedSession.v
theories/PropBigNum.v
theories/ProgMixed.v
theories/MixedJobs.v
theories/PropMixedThreads.v
theories/Mono.v
theories/PropMono.v
theories/MixedDecode.v
theories/PropMixedDecode.v
theories/PropZst.v
theories/GenClient.v
theories/GenClientSpec.v
theories/GenClientFacts.v
theories/GenSession.v
theories/PropGenClient.v
theories/GenMixed.v
theories/GenMixedFacts.v
theories/PropGenMixed.v
theories/Relocate.v
theories/PropRelocate.v
theories/Deleg.v
theories/DelegFacts.v
theories/DelegValid.v
theories/PropDeleg.v
theories/DelegDecode.v
theories/PropDelegDecode.v
theories/ProgDeleg.v
theories/DelegJobs.v
theories/PropDelegThreads.v
theories/PropGenSession.v
theories/Bytes.v
theories/PropBytes.v
theories/GenRecord.v
theories/PropGenRecord.v
theories/Catch.v
theories/CatchFacts.v
theories/PropCatch.v
theories/Nest.v
theories/NestFacts.v
theories/PropNest.v
theories/PropGenerations.v
theories/React.v
theories/ReactFacts.v
theories/ReactSame.v
theories/PropReact.v
theories/Conformance.v
theories/Assumptions.v
