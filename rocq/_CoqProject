-Q theories Verif
theories/Prelude.v
theories/PreludeFacts.v
theories/Writer.v
theories/Foreign.v
theories/WriterSpec.v
theories/WriterContract.v
theories/WriterObs.v
theories/WriterProofs.v
theories/PropsWriter.v
theories/Utf8Spec.v
theories/Utf8.v
theories/Utf8Facts.v
theories/SerdeSer.v
theories/SerMonad.v
theories/MpMagick.v
theories/MpSer.v
theories/SerSim.v
theories/MpSpec.v
theories/MpSerSim.v
theories/MpSerProofs.v
theories/MpSerRel.v
theories/SerSpec.v
theories/MpErrMap.v
theories/MpSerFacts.v
theories/MpSerFacts2.v
theories/PropsMpSer.v
theories/MpBytesSpec.v
theories/MpBytes.v
theories/PropsMpBytes.v
theories/SerdeDe.v
theories/FloatOps.v
theories/Arch.v
theories/MpDe.v
theories/MpDeView.v
theories/MpDeReads.v
theories/MpDeEat.v
theories/MpDeSafe.v
theories/MpDeTop.v
theories/MpDeTrail.v
theories/PropsMpDe.v
theories/Types.v
theories/TypesFacts.v
theories/MpTypeSpec.v
theories/MpTyped.v
theories/MpTypedSer.v
theories/MpAny.v
theories/MpTypedTop.v
theories/MpSound.v
theories/MpAnySound.v
theories/PropsMpTyped.v
theories/Base64Spec.v
theories/Base64.v
theories/Base64Facts.v
theories/Base64Top.v
theories/PropsBase64.v
theories/JsonSpec.v
theories/JsonTypeSpec.v
theories/JsonFacts.v
theories/JsonSer.v
theories/JsonDe.v
theories/JsonDeSafe.v
theories/JsonStr.v
theories/JsonView.v
theories/JsonTok.v
theories/JsonMeth.v
theories/JsonEats.v
theories/JsonTyped.v
theories/JsonTypedTop.v
theories/JsonTypedSer.v
theories/JsonCases.v
theories/PropsJsonTyped.v
theories/JsonSound.v
theories/JsonSoundTop.v
theories/PropsJsonSound.v
theories/JsonAnySpec.v
theories/JsonAny.v
theories/PropsJsonAny.v
theories/TypeSize.v
theories/JsonFuel.v
theories/MpFuel.v
theories/MpWidthSpec.v
theories/MpWidth.v
theories/MpWidthTypes.v
theories/MpWidthTop.v
theories/PropsMpWidth.v
theories/PropsFuel.v
theories/PropsJsonDe.v
theories/JsonSerProofs.v
theories/JsonErrMap.v
theories/JsonSerRel.v
theories/JsonSerFacts.v
theories/PropsJsonSer.v
theories/JsonTokTop.v
theories/PropsJsonTok.v
theories/MpReadBack.v
theories/JsonReadBack.v
theories/PropsReadBack.v
theories/JsonUnamb.v
theories/PropsJsonUnamb.v
theories/MpFaultSpec.v
theories/MpFault.v
theories/MpBlame.v
theories/MpBlameTop.v
theories/PropsFault.v
theories/JsonFaultSpec.v
theories/JsonFaultLeaf.v
theories/JsonFault.v
theories/JsonFaultTyped.v
theories/JsonFaultTotal.v
theories/JsonFaultTop.v
theories/JsonStop.v
theories/PropsJsonFault.v
theories/JsonAnyFaultSpec.v
theories/JsonAnyFault.v
theories/MpAnyFaultSpec.v
theories/MpAnyFault.v
theories/PropsAnyFault.v
theories/TypeDepth.v
theories/MpDepth.v
theories/JsonDepth.v
theories/Nesting.v
theories/MpNesting.v
theories/MpNestTop.v
theories/JsonNesting.v
theories/JsonNestTop.v
theories/PropsDepth.v
theories/HintSpec.v
theories/Hints.v
theories/JsonHints.v
theories/PropsHint.v
theories/SizeSpec.v
theories/MpSize.v
theories/JsonSize.v
theories/SizeTop.v
theories/PropsSize.v
theories/SerFaultSpec.v
theories/MpSerFault.v
theories/JsonSerFault.v
theories/PropsSerFault.v
theories/StreamSpec.v
theories/Stream.v
theories/StreamProofs.v
theories/JsonStream.v
theories/PropsStream.v
theories/Content.v
theories/ContentSpec.v
theories/ContentFacts.v
theories/MpContent.v
theories/JsonContent.v
theories/PropsContent.v
theories/MpTagged.v
theories/JsonTagged.v
theories/PropsTagged.v
theories/StableSpec.v
theories/StableFacts.v
theories/MpStable.v
theories/JsonStable.v
theories/PropsStable.v
theories/EvolveSpec.v
theories/EvolveFacts.v
theories/MpEvolve.v
theories/JsonEvolve.v
theories/EvolveSelf.v
theories/EvolveTop.v
theories/PropsEvolve.v
theories/ErrorText.v
theories/ErrorTextFacts.v
theories/PropsErrorText.v
theories/MpUnique.v
theories/UniqueTop.v
theories/JsonPrefix.v
theories/PropsUnique.v
theories/AdjacentSpec.v
theories/Adjacent.v
theories/MpAdjacent.v
theories/MpAdjacentSwap.v
theories/JsonAdjacent.v
theories/JsonAdjacentSwap.v
theories/MpAdjacentFault.v
theories/AdjacentFaultSpec.v
theories/JsonAdjacentFault.v
theories/PropsAdjacent.v
theories/Flatten.v
theories/FlattenSpec.v
theories/FlattenFacts.v
theories/JsonFlatten.v
theories/FlattenWrites.v
theories/MpFlatten.v
theories/FlattenEncSpec.v
theories/MpFlattenRead.v
theories/FlattenJsonSpec.v
theories/JsonFlattenRead.v
theories/FlattenReadSpec.v
theories/MpFlattenSound.v
theories/JsonFlattenSound.v
theories/PropsFlatten.v
theories/PropsFlattenRead.v
theories/Transcode.v
theories/TranscodeSpec.v
theories/TranscodeFacts.v
theories/TranscodeTyped.v
theories/TranscodeTop.v
theories/PropsTranscode.v
theories/HumanReadable.v
theories/HumanFacts.v
theories/PropsHuman.v
theories/BufferSpec.v
theories/BufferFacts.v
theories/BufferTop.v
theories/BufferFault.v
theories/Nested.v
theories/NestedSpec.v
theories/MpNested.v
theories/AdjacentEnds.v
theories/MpAdjacentEnds.v
theories/AdjacentReadSpec.v
theories/MpAdjacentSound.v
theories/JsonAdjacentEnds.v
theories/JsonAdjacentSound.v
theories/AdjacentWrites.v
theories/JsonNested.v
theories/NestedReadSpec.v
theories/NestedRead.v
theories/NestedSound.v
theories/JsonNestedSound.v
theories/NestedSize.v
theories/MpNestedFuel.v
theories/JsonNestedFuel.v
theories/NestedCut.v
theories/PropsNested.v
theories/PropsBuffer.v
theories/Deny.v
theories/DenySpec.v
theories/MpDeny.v
theories/MpDenySer.v
theories/JsonDeny.v
theories/JsonDenySer.v
theories/PropsDeny.v
theories/MpDenyNewer.v
theories/JsonDenyNewer.v
theories/DenyFaultSpec.v
theories/MpDenyFault.v
