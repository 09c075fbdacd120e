-Q theories Verif
theories/Base.v
theories/BaseFacts.v
theories/Types.v
theories/Errors.v
theories/Spec.v
theories/SpecFacts.v
theories/TypeInfo.v
theories/Reader.v
theories/Varint.v
theories/VarintFacts.v
theories/Writer.v
theories/WriteImpl.v
theories/ReadImpl.v
theories/CircularBuffer.v
theories/Ring.v
theories/RingFacts.v
theories/Readers.v
theories/Writers.v
theories/Api.v
theories/Files.v
theories/Contexts.v
theories/Programs.v
theories/Impls.v
theories/UserOrder.v
theories/Slots.v
theories/PropRing.v
theories/PropVarintConv.v
theories/Refine.v
theories/ReadFacts.v
theories/TyInd.v
theories/Host.v
theories/Supported.v
theories/ZeroCopy.v
theories/LayoutFacts.v
theories/PropErrors.v
theories/DecodeFacts.v
theories/MinFacts.v
theories/ReadSim.v
theories/ReaderFacts.v
theories/EncFacts.v
theories/WriteSim.v
theories/WriterFacts.v
theories/WriteApi.v
theories/ValOrder.v
theories/Wellformed.v
theories/Formats.v
theories/RoundTrip.v
theories/Extend.v
theories/Hosts.v
theories/ReadApi.v
theories/ImplFacts.v
theories/EncMin.v
theories/Entry.v
theories/Conditions.v
theories/Checker.v
theories/Samples.v
theories/PropRoundTrip.v
theories/Portable.v
theories/WriteTrace.v
theories/ClosedWrite.v
theories/PropWrite.v
theories/Lock.v
theories/LockReaders.v
theories/Closed.v
theories/PropReaders.v
theories/PropVarint.v
theories/PropPeek.v
theories/PropScalar.v
theories/Safe.v
theories/SafeReaders.v
theories/Keep.v
theories/CalmCheck.v
theories/Sane.v
theories/PropSafe.v
theories/Undefined.v
theories/PropUndefined.v
theories/Syntax.v
theories/Spelling.v
theories/PropSyntax.v
theories/PropUntil.v
theories/Derive.v
theories/PropTags.v
theories/PropField.v
theories/StructFacts.v
theories/PropLength.v
theories/PropAttrs.v
theories/PropDefault.v
theories/PropPeeked.v
theories/Recursive.v
theories/PropRecursive.v
theories/PropPlain.v
theories/PropBulk.v
theories/PropCollections.v
theories/PropCanonical.v
theories/PropBorrowed.v
theories/PropExclusions.v
theories/PropStream.v
theories/PropSlots.v
theories/PropNoPanic.v
theories/PropInterop.v
theories/PropStable.v
theories/Ordinary.v
theories/OrdinaryHost.v
theories/PropOrdinary.v
theories/PropRestated.v
theories/Depth.v
theories/PropDepth.v
theories/Nominal.v
theories/PropNominal.v
theories/PropNominalMin.v
theories/AnyRead.v
theories/OwnExact.v
theories/Messages.v
theories/AnyWrite.v
theories/Counting.v
theories/MinCounted.v
theories/Scope.v
theories/Moving.v
theories/Header.v
theories/PropAnyRead.v
theories/Same.v
theories/PropSame.v
theories/Custom.v
theories/PropCustom.v
theories/Weight.v
theories/PropWeight.v
theories/Declaration.v
theories/PropDeclaration.v
theories/PropUtf8.v
theories/PropAhead.v
theories/PropLink.v
theories/PropQueue.v
theories/Calls.v
theories/PropCalls.v
theories/PropFiles.v
theories/PropContexts.v
theories/PropPrograms.v
theories/PropReadPrograms.v
theories/PropUnbuffered.v
theories/PropImpls.v
theories/PropNesting.v
theories/PropWait.v
theories/Evolve.v
theories/PropEvolve.v
theories/PropDigits.v
theories/PropOrder.v
theories/Reserve.v
theories/PropReserve.v
theories/PropCapacity.v
theories/PropUserOrder.v
theories/Replay.v
theories/PropAnyStream.v
theories/PropAnyWrite.v
theories/PropCounting.v
theories/PropMinCounted.v
theories/PropScope.v
theories/PropMoving.v
theories/PropHeader.v
theories/Changing.v
theories/SeenReader.v
theories/PropChanging.v
theories/Lending.v
theories/PropLending.v
theories/PropOwnExact.v
theories/PropMessages.v
