-Q theories Verif
theories/Base.v
theories/Interval.v
theories/Shape.v
theories/Traverse.v
theories/Spec.v
theories/Tac.v
theories/ShapeFacts.v
theories/ResolveFacts.v
theories/ShapeProps.v
theories/PropShape.v
theories/IntervalFacts.v
theories/PropInterval.v
theories/TraverseFacts.v
theories/PropTraverse.v
theories/Memory.v
theories/Ref.v
theories/SpecMem.v
theories/MemFacts.v
theories/RefFacts.v
theories/SliceFacts.v
theories/PropRef.v
theories/ZOrder.v
theories/SpecZ.v
theories/ZOrderFacts.v
theories/Rational.v
theories/SpecRational.v
theories/RationalFacts.v
theories/PropMisc.v
theories/Container.v
theories/SpecContainer.v
theories/ContainerFacts.v
theories/ContainerWorld.v
theories/ContainerProps.v
theories/ContainerCases.v
theories/PropContainer.v
theories/Checked.v
theories/SpecChecked.v
theories/CheckedFacts.v
theories/PropChecked.v
theories/Static.v
theories/SpecStatic.v
theories/StaticFacts.v
theories/PropStatic.v
theories/Ein.v
theories/SpecEin.v
theories/EinFacts.v
theories/EinSum.v
theories/EinMake.v
theories/EinUses.v
theories/EinCases.v
theories/PropEin.v
theories/Matrix.v
theories/Tiling.v
theories/SpecMatrix.v
theories/TileFacts.v
theories/MatrixFacts.v
theories/MatrixProd.v
theories/MatrixEin.v
theories/MatrixTiles.v
theories/MatrixZ.v
theories/MatrixOrder.v
theories/TilingFacts.v
theories/MatrixCases.v
theories/PropMatrix.v
theories/Conv.v
theories/SpecConv.v
theories/LoopFacts.v
theories/ConvFacts.v
theories/ConvCases.v
theories/PropConv.v
theories/Compact.v
theories/AccessFacts.v
theories/PropAccess.v
theories/Throw.v
theories/SpecThrow.v
theories/ThrowFacts.v
theories/ThrowWorld.v
theories/ThrowLift.v
theories/ThrowPlain.v
theories/ThrowProps.v
theories/ThrowElems.v
theories/ThrowMoves.v
theories/ThrowCases.v
theories/PropThrow.v
theories/Resample.v
theories/SpecResample.v
theories/ResampleFacts.v
theories/ResampleImage.v
theories/ResampleStrip.v
theories/ResampleWhole.v
theories/ResampleExact.v
theories/ResampleCases.v
theories/PropResample.v
theories/Program.v
theories/SpecProgram.v
theories/ProgramFacts.v
theories/ProgramCases.v
theories/PropProgram.v
theories/Overflow.v
theories/SpecOverflow.v
theories/OverflowFacts.v
theories/PropOverflow.v
theories/Typed.v
theories/SpecTyped.v
theories/TypedFacts.v
theories/PropTyped.v
theories/Uninit.v
theories/SpecParam.v
theories/ParamFacts.v
theories/UninitFacts.v
theories/UninitCases.v
theories/PropParam.v
theories/Print.v
theories/SpecPrint.v
theories/PrintFacts.v
theories/PropPrint.v
theories/EinOps.v
theories/SpecEinOps.v
theories/EinOpsFacts.v
theories/PropEinOps.v
theories/SpecAlias.v
theories/AliasFacts.v
theories/PropAlias.v
theories/Abort.v
theories/SpecAbort.v
theories/AbortFacts.v
theories/AbortWorld.v
theories/AbortCases.v
theories/PropAbort.v
theories/RatChecked.v
theories/SpecRatChecked.v
theories/RatCheckedFacts.v
theories/PropRatChecked.v
theories/ViewChecked.v
theories/SpecViewChecked.v
theories/ViewCheckedFacts.v
theories/PropViewChecked.v
theories/ContChecked.v
theories/SpecContChecked.v
theories/ContCheckedFacts.v
theories/ContCheckedCases.v
theories/PropContChecked.v
theories/SpecOrder.v
theories/OrderFacts.v
theories/PropOrder.v
theories/Bytes.v
theories/SpecBytes.v
theories/BytesFacts.v
theories/BytesRefine.v
theories/PropBytes.v
theories/Views.v
theories/SpecViews.v
theories/ViewsFacts.v
theories/ViewsWorld.v
theories/ViewsCases.v
theories/PropViews.v
theories/Count.v
theories/SpecCount.v
theories/CountFacts.v
theories/CountWorld.v
theories/CountProps.v
theories/CountInline.v
theories/CountCases.v
theories/PropCount.v
theories/Trivial.v
theories/SpecTrivial.v
theories/TrivialFacts.v
theories/TrivialWorld.v
theories/TrivialProps.v
theories/TrivialCases.v
theories/PropTrivial.v
theories/Threads.v
theories/SpecThreads.v
theories/ThreadsFacts.v
theories/ThreadsCalls.v
theories/ThreadsTiles.v
theories/ThreadsCases.v
theories/PropThreads.v
theories/SpecInterp.v
theories/InterpForms.v
theories/InterpFacts.v
theories/SpecRelate.v
theories/RelateFacts.v
theories/InterpCases.v
theories/PropInterp.v
theories/PropRelate.v
theories/SpecInterpViews.v
theories/InterpViewsFacts.v
theories/InterpViewsCases.v
theories/PropInterpViews.v
theories/Callback.v
theories/SpecCallback.v
theories/CallbackFacts.v
theories/CallbackCases.v
theories/PropCallback.v
theories/Control.v
theories/SpecControl.v
theories/ControlFacts.v
theories/ControlCases.v
theories/PropControl.v
theories/SpecInterpThrow.v
theories/ThrowSpent.v
theories/InterpThrowFacts.v
theories/InterpThrowStep.v
theories/InterpThrowCases.v
theories/PropInterpThrow.v
theories/TestShape.v
theories/TestArrays.v
theories/TestOthers.v
theories/Lanczos.v
theories/SpecLanczos.v
theories/RealWeights.v
theories/LanczosFacts.v
theories/LanczosShrink.v
theories/LanczosWhole.v
theories/PropLanczos.v
theories/MatChecked.v
theories/SpecMatChecked.v
theories/MatCheckedFacts.v
theories/MatCheckedProd.v
theories/ConvCheckedFacts.v
theories/MatCheckedCases.v
theories/PropMatChecked.v
theories/ResChecked.v
theories/SpecResChecked.v
theories/ResCheckedFacts.v
theories/ResCheckedCases.v
theories/ResCheckedReal.v
theories/PropResChecked.v
theories/EinTyped.v
theories/SpecEinTyped.v
theories/EinTypedFacts.v
theories/EinTypedCases.v
theories/PropEinTyped.v
theories/Calls.v
theories/SpecCalls.v
theories/CallsFacts.v
theories/PropCalls.v
theories/Scopes.v
theories/SpecScopes.v
theories/ScopesFacts.v
theories/ScopesCases.v
theories/PropScopes.v
theories/Rounding.v
theories/SpecRounding.v
theories/RoundingFacts.v
theories/RoundingProps.v
theories/RoundingCases.v
theories/PropRounding.v
theories/ResRounding.v
theories/SpecResRounding.v
theories/ResRoundingFacts.v
theories/ResRoundingProps.v
theories/ResRoundingExact.v
theories/ResRoundingCases.v
theories/PropResRounding.v
theories/Float.v
theories/SpecFloat.v
theories/FloatFacts.v
theories/FloatProps.v
theories/FloatNear.v
theories/FloatUse.v
theories/FloatSteep.v
theories/PropFloat.v
theories/SpecMoments.v
theories/MomentsProps.v
theories/PropMoments.v
theories/SpecBSplines.v
theories/BSplines.v
theories/PropBSplines.v
