-Q theories Verif
theories/Base.v
theories/Float.v
theories/C1Number.v
theories/C1Operation.v
theories/Tables.v
theories/Utf8.v
theories/C1Index.v
theories/C1Glyphs.v
theories/C1FontSet.v
theories/T2Number.v
theories/T2Operation.v
theories/T2Program.v
theories/SpecBytes.v
theories/BaseFacts.v
theories/SpecNumber.v
theories/NumberFacts.v
theories/SpecRounding.v
theories/FloatFacts.v
theories/RealFacts.v
theories/PropNumbers.v
theories/SpecOperation.v
theories/OperationFacts.v
theories/SpecT2Operator.v
theories/T2OperatorFacts.v
theories/PropDictionaries.v
theories/SpecIndex.v
theories/IndexFacts.v
theories/SpecUtf8.v
theories/SpecStrings.v
theories/Utf8Facts.v
theories/StringFacts.v
theories/PropIndices.v
theories/SpecGlyphs.v
theories/GlyphFacts.v
theories/PropGlyphs.v
theories/SpecFontSet.v
theories/FontSetFacts.v
theories/LayoutFacts.v
theories/FontSetSamples.v
theories/SpecPanic.v
theories/PanicFacts.v
theories/SpecEmbed.v
theories/EmbedFacts.v
theories/PropFontSet.v
theories/SpecProgram.v
theories/T2NumberFacts.v
theories/StepFacts.v
theories/ClearFacts.v
theories/RunFacts.v
theories/ListingFacts.v
theories/EvalFacts.v
theories/IntegralFacts.v
theories/StackFacts.v
theories/ExecutionFacts.v
theories/SubroutineFacts.v
theories/ProgramFacts.v
theories/ArithmeticFacts.v
theories/PropOperands.v
theories/PropExecution.v
theories/SpecExecution.v
theories/ReferenceFacts.v
theories/PropSemantics.v
theories/LiteralFacts.v
theories/SpecFile.v
theories/FileFacts.v
theories/GlyphProgramFacts.v
theories/PropFile.v
theories/SpecSize.v
theories/SizeFacts.v
theories/RecursionFacts.v
theories/SpecStream.v
theories/StreamFacts.v
theories/CureFacts.v
theories/SpecFailure.v
theories/FailureFacts.v
theories/WeightFacts.v
theories/GrowthFacts.v
theories/PropSize.v
theories/PropStream.v
theories/PropFailure.v
theories/SpecFault.v
theories/FaultFacts.v
theories/PropFault.v
theories/T2Machine.v
theories/SpecMachine.v
theories/MachineFacts.v
theories/AftermathFacts.v
theories/SessionFacts.v
theories/SpecCalls.v
theories/CallsFacts.v
theories/SpecNest.v
theories/SpecRewrite.v
theories/BoundFacts.v
theories/RewriteFacts.v
theories/SpecInline.v
theories/InlineFacts.v
theories/SessionBoundFacts.v
theories/PropMachine.v
theories/C1Tape.v
theories/SpecTape.v
theories/TapeFacts.v
theories/TapeFileFacts.v
theories/PropTape.v
theories/T2Effort.v
theories/SpecEffort.v
theories/EffortFacts.v
theories/PropEffort.v
theories/SpecCut.v
theories/CutFacts.v
theories/CutFontSetFacts.v
theories/PropCut.v
theories/C1Plan.v
theories/PlanFacts.v
theories/SpecParts.v
theories/AskFacts.v
theories/PartsFacts.v
theories/OrderFacts.v
theories/WorkFacts.v
theories/PropParts.v
theories/PropCalls.v
theories/SpecEdit.v
theories/EditFacts.v
theories/PropEdit.v
theories/SpecKept.v
theories/KeptFacts.v
theories/PropKept.v
theories/NestFacts.v
theories/PropNest.v
theories/SpecDevice.v
theories/DeviceFacts.v
theories/PropDevice.v
theories/IdentityFacts.v
theories/RewriteSamples.v
theories/PropRewrite.v
theories/SpecFinite.v
theories/FiniteFacts.v
theories/PropFinite.v
theories/InlineSamples.v
theories/PropInline.v
theories/SpecWidth.v
theories/WidthFacts.v
theories/WidthSamples.v
theories/PropWidth.v
theories/SpecDeep.v
theories/DeepFacts.v
theories/DeepSamples.v
theories/PropDeep.v
theories/LimitFacts.v
theories/PropLimits.v
theories/SpecHint.v
theories/HintFacts.v
theories/HintSamples.v
theories/PropHint.v
theories/SpecFlat.v
theories/FlatFacts.v
theories/PropFlat.v
theories/SpecDress.v
theories/DressFacts.v
theories/PropDress.v
theories/SpecRepack.v
theories/RepackFacts.v
theories/SpecContents.v
theories/ContentsFacts.v
theories/PropRepack.v
theories/SpecExpress.v
theories/ExpressFacts.v
theories/PropExpress.v
theories/PropContents.v
theories/C1Word.v
theories/T2Word.v
theories/WordFacts.v
theories/WordRunFacts.v
theories/WordBoundFacts.v
theories/PropWord.v
theories/SpecRedraw.v
theories/RedrawFacts.v
theories/PropRedraw.v
