-Q theories Verif
theories/Base.v
theories/F64.v
theories/Utf8.v
theories/Json.v
theories/Parse.v
theories/Print.v
theories/Ops.v
theories/Path.v
theories/MapProofs.v
theories/SpecGrammar.v
theories/SpecLenient.v
theories/Utf8Proofs.v
theories/StringProofs.v
theories/NumberProofs.v
theories/ScanProofs.v
theories/GrammarProofs.v
theories/SpecNumber.v
theories/FloatProofs.v
theories/DecProofs.v
theories/SpecShortest.v
theories/ShortestProofs.v
theories/PrintProofs.v
theories/LenientProofs.v
theories/PropsParse.v
theories/UnambigProofs.v
theories/SpecValue.v
theories/PropsPrint.v
theories/SpecLayout.v
theories/PropsLayout.v
theories/SpecPath.v
theories/PathProofs.v
theories/PathTextProofs.v
theories/PreserveProofs.v
theories/PropsPath.v
theories/PropsOps.v
theories/CanonProofs.v
theories/Convert.v
theories/SpecConvert.v
theories/ConvertNumProofs.v
theories/KeyProofs.v
theories/ConvertProofs.v
theories/PropsConvert.v
theories/SpecErrors.v
theories/PropsErrors.v
theories/SpecWrites.v
theories/PropsWrites.v
theories/PropsText.v
theories/Derive.v
theories/SpecDerive.v
theories/PropsDerive.v
theories/SpecMessages.v
theories/PropsMessages.v
theories/SpecBlame.v
theories/BlameProofs.v
theories/PropsBlame.v
theories/Tokens.v
theories/SpecAttr.v
theories/SpecTokens.v
theories/TokenProofs.v
theories/AttrProofs.v
theories/DeclProofs.v
theories/PropsTokens.v
theories/Equality.v
theories/SpecEquality.v
theories/PropsEquality.v
theories/Display.v
theories/PropsDisplay.v
theories/SpecOrder.v
theories/PropsOrder.v
theories/SpecDepth.v
theories/PropsDepth.v
theories/Parse32.v
theories/PropsParse32.v
theories/Cost.v
theories/PropsCost.v
theories/Quote.v
theories/SpecQuote.v
theories/QuoteProofs.v
theories/PropsQuote.v
theories/Macros.v
theories/SpecMacros.v
theories/PropsMacros.v
theories/SpecRust.v
theories/RustProofs.v
theories/PropsRust.v
theories/Items.v
theories/SpecItems.v
theories/ItemProofs.v
theories/PropsItems.v
theories/Meta.v
theories/SpecMeta.v
theories/MetaProofs.v
theories/PropsMeta.v
theories/Translate.v
theories/SpecTranslate.v
theories/TranslateProofs.v
theories/PropsTranslate.v
theories/QuoteAt.v
theories/QuoteAtProofs.v
theories/SpecQuoteAt.v
theories/ScopeProofs.v
theories/PropsQuoteAt.v
theories/PropsScope.v
theories/AnyMap.v
theories/SpecHistory.v
theories/PropsHistory.v
theories/CommuteProofs.v
theories/PropsCommute.v
theories/Types.v
theories/SpecTypes.v
theories/PropsTypes.v
theories/SpecSize.v
theories/SizeProofs.v
theories/PropsSize.v
theories/CutProofs.v
theories/PropsCut.v
theories/SpecMonotone.v
theories/PropsMonotone.v
theories/SpecEvolve.v
theories/PropsEvolve.v
theories/SpecScalars.v
theories/PropsScalars.v
theories/SpecJoin.v
theories/PropsJoin.v
theories/SpecSpan.v
theories/PropsSpan.v
theories/SpecMinify.v
theories/PropsMinify.v
theories/SpecRetype.v
theories/PropsRetype.v
theories/PropsStretch.v
theories/SpecSeries.v
theories/PropsSeries.v
theories/Tests.v
