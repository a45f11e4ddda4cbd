-Q theories Verif

theories/Prelude.v
theories/Spin.v
theories/SpecSpin.v
theories/SpinFacts.v
theories/SpinProofs.v
theories/PropsSpin.v
theories/Decay.v
theories/DecayFacts.v
theories/DecayProofs.v
theories/PropsDecay.v
theories/Expr.v
theories/Angles.v
theories/SpecKin.v
theories/KinFacts.v
theories/AnglesFacts.v
theories/AnglesGeo.v
theories/Dimension.v
theories/AnglesProofs.v
theories/PropsAngles.v
theories/Sums.v
theories/Wigner.v
theories/WignerFacts.v
theories/CG.v
theories/CGFacts.v
theories/CExpr.v
theories/Builder.v
theories/SpecBuilder.v
theories/SpecDPD.v
theories/CExprFacts.v
theories/BuilderFacts.v
theories/ModelFacts.v
theories/RefFacts.v
theories/OccFacts.v
theories/BuilderProofs.v
theories/RefRefuted.v
theories/BuilderExamples.v
theories/PropsBuilder.v
theories/Dynamics.v
theories/SpecDynamics.v
theories/DynamicsProofs.v
theories/LineshapeFacts.v
theories/LineshapeProofs.v
theories/DynExamples.v
theories/PropsDynamics.v
theories/Qrules.v
theories/SpecQrules.v
theories/QrulesFacts.v
theories/QrulesNorm.v
theories/QrulesThree.v
theories/QrulesFilter.v
theories/QrulesConvert.v
theories/QrulesDecay.v
theories/QrulesLabels.v
theories/QrulesMinLs.v
theories/QrulesExamples.v
theories/PropsQrules.v
theories/SerFormat.v
theories/SerDynamics.v
theories/SerAmplitude.v
theories/SpecSerial.v
theories/SerDecay.v
theories/SerAmpFacts.v
theories/SerModel.v
theories/SerProofs.v
theories/SerDyn.v
theories/SerTotal.v
theories/SerFormal.v
theories/SpecSerialShapes.v
theories/SerShapes.v
theories/SerExamples.v
theories/PropsSerial.v
theories/IO.v
theories/SpecIO.v
theories/IOProofs.v
theories/IOFloat.v
theories/IOTables.v
theories/IOLatex.v
theories/PropsIO.v
theories/Cached.v
theories/SpecCached.v
theories/CachedProofs.v
theories/PropsCached.v
theories/CGOrth.v
theories/CGComplete.v
theories/LSBasis.v
theories/SpecLS.v
theories/LSProofs.v
theories/PropsLS.v
theories/SpecPropagators.v
theories/SerPropagators.v
theories/PropsPropagators.v
theories/ChainProofs.v
theories/SpecBasis.v
theories/BasisProofs.v
theories/SpecParity.v
theories/ParityProofs.v
theories/ChainExamples.v
theories/PropsChains.v
theories/SpecRelabel.v
theories/RelabelFacts.v
theories/SpecReorder.v
theories/ReorderFacts.v
theories/RelabelProofs.v
theories/RelabelExamples.v
theories/RelabelShapes.v
theories/RelabelShapeExamples.v
theories/PropsRelabel.v
theories/SpecNodes.v
theories/NodeProofs.v
theories/PropsNodes.v
theories/SpecObs.v
theories/JacobiFacts.v
theories/LegendreFacts.v
theories/ObsKin.v
theories/ObsProofs.v
theories/ObsShapes.v
theories/ObsExamples.v
theories/PropsObs.v
theories/SpecForm.v
theories/FormProofs.v
theories/PropsForm.v
theories/SpecFinite.v
theories/FiniteFacts.v
theories/FiniteShapes.v
theories/FiniteExamples.v
theories/PropsFinite.v
theories/SpecHankel.v
theories/HankelFacts.v
theories/SpecUnits.v
theories/UnitFacts.v
theories/UnitExamples.v
theories/PropsUnits.v
theories/SpecWorkflow.v
theories/WorkflowFacts.v
theories/WorkflowExamples.v
theories/OrderFacts.v
theories/OrderExamples.v
theories/PropsWorkflow.v
theories/InterferenceFacts.v
theories/SpecTurn.v
theories/TurnFacts.v
theories/PropsTurn.v
theories/SpecAngular.v
theories/AngularFacts.v
theories/MirrorFacts.v
theories/AngularExamples.v
theories/PropsAngular.v
theories/PartialFacts.v
theories/PropsPartial.v
theories/Latex.v
theories/SpecLatex.v
theories/Messages.v
theories/LatexFacts.v
theories/SpecMessages.v
theories/MessageFacts.v
theories/MessageExamples.v
theories/PropsLatex.v
theories/PropsMessages.v
theories/ReorderProofs.v
theories/ReorderShapes.v
theories/ReorderExamples.v
theories/PropsReorder.v
theories/SpecIdentical.v
theories/IdenticalFacts.v
theories/IdenticalProofs.v
theories/IdenticalExamples.v
theories/PropsIdentical.v
theories/SpecDefinition.v
theories/SerComplete.v
theories/SerCompleteExamples.v
theories/PropsDefinition.v
theories/SpecContinuity.v
theories/ContinuityFacts.v
theories/ContinuityProofs.v
theories/PropsContinuity.v
theories/SpecRename.v
theories/RenameProofs.v
theories/RenameExamples.v
theories/PropsRename.v
theories/SpecAgree.v
theories/AgreeProofs.v
theories/AgreeExamples.v
theories/PropsAgree.v
theories/SpecWeights.v
theories/SerWeights.v
theories/SerSymbols.v
theories/SerWeightExamples.v
theories/PropsWeights.v
theories/SpecOptions.v
theories/OptionFacts.v
theories/SpecBases.v
theories/BasesProofs.v
theories/SpecReversal.v
theories/ReversalProofs.v
theories/OptionExamples.v
theories/PropsOptions.v
theories/SpecFractions.v
theories/FractionProofs.v
theories/PropsFractions.v
theories/LcModel.v
theories/ConfLc.v
theories/ConfBuilder.v
theories/Conf.v
theories/LcProofs.v
theories/Difflib.v
theories/SpecSuggest.v
theories/DifflibFacts.v
theories/SuggestProofs.v
theories/SuggestExamples.v
theories/PropsSuggest.v
theories/SpecParts.v
theories/SerParts.v
theories/PartExamples.v
theories/PropsParts.v
theories/DoIt.v
theories/DoItFacts.v
theories/FullFacts.v
theories/SpecFull.v
theories/FullProofs.v
theories/PropsFull.v
theories/SpecSerPoints.v
theories/SerPoints.v
theories/SerPointExamples.v
theories/PropsSerPoints.v
theories/SpecSerFinite.v
theories/SerFinite.v
theories/SerFiniteExamples.v
theories/PropsSerFinite.v
theories/SpecUnitary.v
theories/UnitaryProofs.v
theories/ChannelProofs.v
theories/PropsUnitary.v
theories/SpecSerRelabel.v
theories/SerRelabel.v
theories/SerRelabelDef.v
theories/SerRelabelExamples.v
theories/PropsSerRelabel.v
theories/SpecWigner.v
theories/WignerFrames.v
theories/WignerProofs.v
theories/WignerUnique.v
theories/PropsWigner.v
theories/SpecCovariant.v
theories/CovariantRep.v
theories/CovariantProofs.v
theories/CovariantExamples.v
theories/PropsCovariant.v
theories/SerCovariant.v
theories/PropsSerCovariant.v
theories/CGRotation.v
theories/SpecWave.v
theories/WaveFacts.v
theories/WaveProofs.v
theories/WaveExamples.v
theories/PropsWave.v
theories/SpecMassless.v
theories/MasslessFacts.v
theories/MasslessExamples.v
theories/PropsMassless.v
theories/SpecLine.v
theories/LineFacts.v
theories/LineProofs.v
theories/LineBoundary.v
theories/LineExamples.v
theories/PropsLine.v
theories/SpecEnvelope.v
theories/EnvelopeFacts.v
theories/EnvelopeSerial.v
theories/EnvelopeExamples.v
theories/PropsEnvelope.v
theories/SpecProjection.v
theories/ProjectionFacts.v
theories/ProjectionExamples.v
theories/PropsProjection.v
theories/SpecSmooth.v
theories/SmoothFacts.v
theories/SmoothAngles.v
theories/SmoothProofs.v
theories/SmoothExamples.v
theories/PropsSmooth.v
theories/SpecPolar.v
theories/PolarFacts.v
theories/PolarProofs.v
theories/PropsPolar.v
theories/SpecBounded.v
theories/BoundedFacts.v
theories/BoundedProofs.v
theories/PropsBounded.v
theories/SpecSerBounded.v
theories/SerBounded.v
theories/SerBoundedExamples.v
theories/PropsSerBounded.v
theories/SpecSerSmooth.v
theories/SerSmooth.v
theories/SerSmoothExamples.v
theories/PropsSerSmooth.v
theories/SpecNormal.v
theories/IntegralFacts.v
theories/NormalKin.v
theories/NormalFacts.v
theories/NormalProofs.v
theories/NormalExamples.v
theories/PropsNormal.v
theories/FubiniFacts.v
theories/AxisFacts.v
theories/AxisProofs.v
theories/AxisModels.v
theories/AxisExamples.v
theories/PropsAxis.v
theories/RateFacts.v
theories/RateProofs.v
theories/RateWaves.v
theories/RateExamples.v
theories/PropsRate.v
theories/SpecPhase.v
theories/PhaseProofs.v
theories/PhaseModels.v
theories/PropsPhase.v
theories/RateForm.v
theories/SerRate.v
theories/SerRateWeights.v
theories/SerRateExamples.v
theories/PropsSerRate.v
theories/SpecTransfer.v
theories/TransferFacts.v
theories/TransferModels.v
theories/TransferExamples.v
theories/PropsTransfer.v
theories/SpecNarrow.v
theories/NarrowFacts.v
theories/NarrowProofs.v
theories/NarrowExamples.v
theories/PropsNarrow.v
theories/SpecClosed.v
theories/ClosedProofs.v
theories/PropsClosed.v
theories/BelowProofs.v
theories/PropsBelow.v
theories/SpecEffect.v
theories/EffectProofs.v
theories/EffectExamples.v
theories/EffectShapes.v
theories/PropsEffect.v
theories/SpecScale.v
theories/ScaleProofs.v
theories/PropsScale.v
theories/SpecSerEffect.v
theories/SerEffectProofs.v
theories/SerEffectShapes.v
theories/SerEffectExamples.v
theories/LcEffect.v
theories/PropsSerEffect.v
theories/SpecSerMassless.v
theories/SerMassless.v
theories/SerMasslessExamples.v
theories/PropsSerMassless.v
theories/SpecSerChain.v
theories/SerChain.v
theories/SerChainExamples.v
theories/PropsSerChain.v
theories/SpecSerCombine.v
theories/SerCombine.v
theories/PropsSerCombine.v
theories/SpecLcParameters.v
theories/LcParameters.v
theories/PropsLcParameters.v
theories/SpecSerWaves.v
theories/SerWaves.v
theories/SerWavesExamples.v
theories/PropsSerWaves.v
theories/SpecSerOpposite.v
theories/SerOpposite.v
theories/PropsSerOpposite.v
theories/SpecSerStrip.v
theories/SerStrip.v
theories/PropsSerStrip.v
theories/SerWavesRate.v
theories/SerWavesRateExamples.v
theories/PropsSerWavesRate.v
theories/SpecSerNarrow.v
theories/SerNarrow.v
theories/SerNarrowExamples.v
theories/PropsSerNarrow.v
