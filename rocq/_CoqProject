-Q theories Verif
theories/Base.v
theories/Options.v
theories/Int.v
theories/BaseFacts.v
theories/OptionsSpec.v
theories/OptionsFacts.v
theories/IntSpec.v
theories/IntFacts.v
theories/PropsOptions.v
theories/PropsInt.v
theories/Utf8.v
theories/Types.v
theories/Storage.v
theories/StorageSpec.v
theories/TypesFacts.v
theories/StorageFacts.v
theories/DecFacts.v
theories/StorageSafe.v
theories/PropsStorage.v
theories/Fmt.v
theories/Wire.v
theories/Desc.v
theories/FmtSpec.v
theories/StabFacts.v
theories/FmtFacts.v
theories/FmtSafe.v
theories/FmtStab.v
theories/FmtEvolve.v
theories/SkipFacts.v
theories/WireFacts.v
theories/FmtCount.v
theories/PropsWire.v
theories/DescFacts.v
theories/PropsDesc.v
theories/IO.v
theories/IOSpec.v
theories/IOFacts.v
theories/PropsIO.v
theories/JsonNumSpec.v
theories/Dec2fltTable.v
theories/FloatSpec.v
theories/FloatTextSpec.v
theories/Dec2flt.v
theories/NumText.v
theories/Json.v
theories/JsonSpec.v
theories/Utf8Facts.v
theories/FloatFacts.v
theories/FloatFast.v
theories/FloatLemire.v
theories/FloatLemire2.v
theories/FloatLemire3.v
theories/FloatDigits.v
theories/FloatSlow.v
theories/FloatRound.v
theories/FloatSlow2.v
theories/FloatSwar.v
theories/FloatParse.v
theories/FloatDec.v
theories/FloatTop.v
theories/FloatNear.v
theories/FloatWords.v
theories/FloatSat.v
theories/FloatExt.v
theories/ItoaFacts.v
theories/NumTextFacts.v
theories/JsonFloat.v
theories/JsonFacts.v
theories/JsonText.v
theories/JsonDec.v
theories/JsonEnc.v
theories/JsonSafe.v
theories/JsonExt.v
theories/JsonMore.v
theories/JsonExact.v
theories/JsonFinite.v
theories/PropsJson.v
theories/CanonFacts.v
theories/PropsCanon.v
theories/Zc.v
theories/ZcSpec.v
theories/ZcFacts.v
theories/ZcValid.v
theories/ZcSwap.v
theories/PropsZc.v
theories/ZcBuf.v
theories/ZcBufSpec.v
theories/ZcBufFacts.v
theories/PropsZcBuf.v
theories/ZcRefSpec.v
theories/ZcRefFacts.v
theories/PropsZcRef.v
theories/Sip.v
theories/SipSpec.v
theories/SipFacts.v
theories/PropsSip.v
theories/Swiss.v
theories/SwissGroup.v
theories/SwissSpec.v
theories/SwissFacts.v
theories/PropsSwiss.v
theories/Phf.v
theories/PhfFacts.v
theories/PhfSpec.v
theories/PropsPhf.v
theories/Trie.v
theories/TrieSpec.v
theories/TrieFacts.v
theories/TrieWalk.v
theories/TrieSafe.v
theories/PropsTrie.v
theories/Alloc.v
theories/AllocSpec.v
theories/AllocFacts.v
theories/AllocGrow.v
theories/AllocVec.v
theories/AllocMerge.v
theories/AllocRun.v
theories/AllocTidy.v
theories/AllocWitness.v
theories/AllocReserve.v
theories/PropsAlloc.v
theories/Derive.v
theories/DeriveSpec.v
theories/DeriveFacts.v
theories/PropsDerive.v
theories/Value.v
theories/ValueSpec.v
theories/ValueFacts.v
theories/PropsValue.v
theories/Any.v
theories/AnySpec.v
theories/AnyFacts.v
theories/PropsAny.v
theories/Tagged.v
theories/TaggedSpec.v
theories/TaggedFacts.v
theories/PropsTagged.v
theories/JsonNum.v
theories/JsonAny.v
theories/JsonNumFacts.v
theories/PropsJsonNum.v
theories/JsonAnySpec.v
theories/JsonAnyFacts.v
theories/JsonBufFacts.v
theories/PropsJsonAny.v
theories/JsonTagged.v
theories/JsonTaggedFacts.v
theories/PropsJsonTagged.v
theories/PropsFloat.v
theories/Serde.v
theories/SerdeFacts.v
theories/SerdeJsonFacts.v
theories/PropsSerde.v
theories/Ctx.v
theories/CtxSpec.v
theories/CtxFacts.v
theories/PropsCtx.v
theories/Trace.v
theories/TraceSpec.v
theories/TraceFacts.v
theories/PropsTrace.v
theories/Std.v
theories/StdSpec.v
theories/StdFacts.v
theories/PropsStd.v
theories/Names.v
theories/NamesSpec.v
theories/NamesFacts.v
theories/PropsNames.v
theories/JsonValue.v
theories/JsonValueSpec.v
theories/JsonValueFacts.v
theories/PropsJsonValue.v
theories/System.v
theories/SystemSpec.v
theories/SystemFacts.v
theories/PropsSystem.v
theories/EntriesSpec.v
theories/EntriesFacts.v
theories/PropsEntries.v
theories/SysString.v
theories/SysStringSpec.v
theories/SysStringFacts.v
theories/PropsSysString.v
theories/Disabled.v
theories/DisabledSpec.v
theories/DisabledFacts.v
theories/PropsDisabled.v
theories/Prealloc.v
theories/PreallocFacts.v
theories/PropsPrealloc.v
theories/FixedVec.v
theories/FixedVecSpec.v
theories/FixedVecFacts.v
theories/PropsFixedVec.v
