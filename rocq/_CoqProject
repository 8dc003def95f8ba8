-Q theories Verif
theories/Chars.v
theories/Floats.v
theories/Json.v
theories/Shared.v
theories/EncPrim.v
theories/Normalize.v
theories/Folding.v
theories/Encoders.v
theories/Replacer.v
theories/EncodeApi.v
theories/Scanner.v
theories/Parser.v
theories/DecValidation.v
theories/Decoders.v
theories/EventBuilder.v
theories/Expand.v
theories/DecodeApi.v
theories/Fixtures.v
theories/Lex.v
theories/NumProof.v
theories/PrimProof.v
theories/Spec.v
theories/ParseProof.v
theories/DecRel.v
theories/PropsTokens.v
theories/PropsHeader.v
theories/DecProps.v
theories/DecRelax.v
theories/DecCost.v
theories/ExpandProof.v
theories/PadProof.v
theories/FuelProof.v
theories/PropsDecode.v
theories/JsonInd.v
theories/JsonEq.v
theories/Layout.v
theories/LayEnc.v
theories/LayFacts.v
theories/EncTotal.v
theories/WrittenProps.v
theories/Checkers.v
theories/RoundTrip.v
theories/ExpandProps.v
theories/FoldProps.v
theories/PropsRoundTrip.v
theories/PropsFold.v
theories/SpecReplace.v
theories/ReplaceProof.v
theories/PropsReplace.v
theories/AsyncEncode.v
theories/PropsAsyncEnc.v
theories/AsyncDecode.v
theories/AsyncDecProof.v
theories/PropsAsyncDec.v
theories/DecNums.v
theories/JsonText.v
theories/SpecJson.v
theories/JsonNumProof.v
theories/JsonTextProof.v
theories/PropsJson.v
theories/JsonGrammar.v
theories/SpecSerde.v
theories/Serde.v
theories/SerdeProof.v
theories/SerdeNum.v
theories/SerdeRead.v
theories/PropsSerde.v
theories/Utf8.v
theories/Utf8Proof.v
theories/SpecUtf8.v
theories/PropsChars.v
theories/Cli.v
theories/SpecCli.v
theories/CliProof.v
theories/SayProof.v
theories/CliPath.v
theories/PropsCli.v
theories/SpecText.v
theories/TextProof.v
theories/PropsText.v
theories/SpecRead.v
theories/SpecError.v
theories/ReadLex.v
theories/ReadHead.v
theories/ReadLine.v
theories/ErrLex.v
theories/ReadProof.v
theories/ErrProof.v
theories/PropsRead.v
theories/ByteLevel.v
theories/ByteProof.v
theories/PropsByte.v
theories/PropsUnread.v
theories/SpecCut.v
theories/CutProof.v
theories/PropsCut.v
theories/SpecJoin.v
theories/JoinProof.v
theories/PropsJoin.v
theories/PropsNest.v
theories/SpecExpand.v
theories/ExpandMean.v
theories/PropsExpand.v
theories/PropsFoldExact.v
theories/ErrText.v
theories/PropsError.v
theories/SpecMessage.v
theories/MessageProof.v
theories/PropsErrText.v
theories/CharsKept.v
theories/ReadChars.v
theories/PropsTool.v
theories/PropsSay.v
theories/SpecNum.v
theories/RoundProof.v
theories/ShortProof.v
theories/NumExt.v
theories/PropsNum.v
theories/Wasm.v
theories/SpecWasm.v
theories/PropsWasm.v
theories/SpecStream.v
theories/StreamProof.v
theories/PropsStream.v
theories/SpecRound.v
theories/RoundExact.v
theories/OrderProof.v
theories/PropsExact.v
theories/ReplacerState.v
theories/SpecAsk.v
theories/AskProof.v
theories/PropsAsk.v
theories/ArgsParse.v
theories/SpecArgs.v
theories/ArgsProof.v
theories/PropsArgs.v
theories/SpecEvents.v
theories/EventProof.v
theories/PropsEvents.v
theories/PropsKind.v
theories/PropsPad.v
theories/DecFrames.v
theories/FramesProof.v
theories/EncFrames.v
theories/EncFramesProof.v
theories/PropsFrames.v
theories/SpecEdit.v
theories/EditText.v
theories/EditProof.v
theories/PropsEdit.v
theories/DiffProof.v
theories/PropsDiff.v
theories/FoldShort.v
theories/PropsShort.v
theories/SpecSize.v
theories/SizeProof.v
theories/PropsSize.v
theories/SpecGap.v
theories/GapProof.v
theories/PropsGap.v
theories/Snapshots.v
theories/SpecPretty.v
theories/PrettyProof.v
theories/PropsPretty.v
theories/SpecPerm.v
theories/PermProof.v
theories/PropsPerm.v
theories/SpecParts.v
theories/PartsProof.v
theories/PropsParts.v
theories/SpecGrow.v
theories/GrowProof.v
theories/PropsGrow.v
theories/ExpFrames.v
theories/ExpFramesProof.v
theories/PropsExpFrames.v
theories/SpecDeep.v
theories/DeepProof.v
theories/KeyedProof.v
theories/ItemsProof.v
theories/PropsDeep.v
theories/SpecFault.v
theories/FaultProof.v
theories/PropsFault.v
theories/SpecRename.v
theories/PropsRename.v
theories/SpecKeyEdit.v
theories/KeyEditProof.v
theories/PropsKeyEdit.v
theories/NearProof.v
theories/PropsEditExpand.v
theories/PropsJoinExpand.v
theories/SpecKept.v
theories/KeptProof.v
theories/PropsCutExpand.v
theories/PropsDeepExpand.v
theories/RefoldProof.v
theories/PropsRefold.v
theories/PropsToolFold.v
theories/PropsCarried.v
theories/PropsJoinFold.v
theories/PropsPartsFold.v
theories/PropsInteger.v
theories/PropsRenameFold.v
theories/SpecField.v
theories/PropsField.v
theories/PropsItemsFold.v
theories/PropsEventsFold.v
theories/PropsBlocks.v
theories/PropsRowOrder.v
