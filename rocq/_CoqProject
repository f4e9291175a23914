-Q theories Verif
theories/Ring.v
theories/Tensor.v
theories/TensorFacts.v
theories/BitModel.v
theories/BitSpec.v
theories/BitFacts.v
theories/BitProps.v
theories/Py.v
theories/TebdModel.v
theories/TebdSpec.v
theories/TebdFacts.v
theories/TebdProps.v
theories/NconModel.v
theories/NconSpec.v
theories/NconFacts.v
theories/NconGraph.v
theories/NconMain.v
theories/NconProps.v
theories/TensorEval.v
theories/MpsModel.v
theories/MpsSpec.v
theories/MpsFacts.v
theories/PrepFacts.v
theories/PositionFacts.v
theories/MoveFacts.v
theories/MpsMain.v
theories/NconEval.v
theories/MpsOps.v
theories/AddFacts.v
theories/OrthoFacts.v
theories/InitFacts.v
theories/GaugeFacts.v
theories/StateFacts.v
theories/SweepFacts.v
theories/CopyModel.v
theories/Complex.v
theories/Witness.v
theories/Cases.v
theories/GaugeProps.v
theories/StateProps.v
theories/SumTac.v
theories/GQ.v
theories/LayerModel.v
theories/LayerSpec.v
theories/LayerFacts.v
theories/LayerMain.v
theories/LayerProps.v
theories/MeasModel.v
theories/MeasSpec.v
theories/MeasFacts.v
theories/MeasMain.v
theories/MeasElem.v
theories/MeasState.v
theories/MeasString.v
theories/MeasOver.v
theories/MeasProps.v
theories/MeasLimitProps.v
theories/GateModel.v
theories/GateSpec.v
theories/GateFacts.v
theories/GateMain.v
theories/GateOne.v
theories/GateProps.v
theories/HamModel.v
theories/HamSpec.v
theories/HamFacts.v
theories/HamChain.v
theories/HamJw.v
theories/HamTensors.v
theories/HamFermi.v
theories/HamPack.v
theories/HamProps.v
theories/SchmidtFacts.v
theories/SchmidtProps.v
theories/EngineModel.v
theories/EngineSpec.v
theories/EngineFacts.v
theories/EngineMain.v
theories/EngineRuns.v
theories/EngineProps.v
theories/Ord.v
theories/UtilModel.v
theories/UtilSpec.v
theories/UtilFacts.v
theories/UtilMain.v
theories/UtilHist.v
theories/UtilProps.v
theories/TdvpModel.v
theories/TdvpSpec.v
theories/TdvpReplay.v
theories/TdvpFacts.v
theories/TdvpMain.v
theories/TdvpRuns.v
theories/TdvpProps.v
theories/LanModel.v
theories/LanSpec.v
theories/LanFacts.v
theories/LanMain.v
theories/LanEig.v
theories/LanRuns.v
theories/LanWitness.v
theories/LanProps.v
theories/GroundModel.v
theories/GroundSpec.v
theories/GroundFacts.v
theories/GroundReplay.v
theories/GroundMain.v
theories/GroundProps.v
theories/TransModel.v
theories/TransSpec.v
theories/TransFacts.v
theories/TransMain.v
theories/TransProj.v
theories/TransProps.v
theories/SteadyModel.v
theories/SteadySpec.v
theories/SteadyMain.v
theories/SteadyStat.v
theories/SteadyProps.v
theories/GexpModel.v
theories/GexpSpec.v
theories/GexpReal.v
theories/GexpArnoldi.v
theories/GexpMain.v
theories/GexpKrylov.v
theories/GexpRuns.v
theories/GexpProps.v
theories/CanonModel.v
theories/CanonSpec.v
theories/CanonSvd.v
theories/CanonStep.v
theories/CanonMain.v
theories/CanonExtra.v
theories/CanonTrunc.v
theories/CanonProps.v
theories/TwoModel.v
theories/TwoSpec.v
theories/TwoMerge.v
theories/TwoFuse.v
theories/TwoSplit.v
theories/TwoTurn.v
theories/TwoMain.v
theories/TwoEnergy.v
theories/TwoRuns.v
theories/TwoEnd.v
theories/TwoProps.v
theories/TwoWitness.v
theories/TwoCase.v
theories/TwoLimitProps.v
theories/ConsModel.v
theories/ConsSpec.v
theories/ConsMain.v
theories/ConsRuns.v
theories/ConsFacts.v
theories/ConsWitness.v
theories/ConsLimit.v
theories/ConsProps.v
theories/TrotModel.v
theories/TrotSpec.v
theories/TrotSched.v
theories/TrotMain.v
theories/TrotGate.v
theories/TrotRun.v
theories/TrotHam.v
theories/TrotLimit.v
theories/TrotCase.v
theories/TrotProps.v
theories/RegModel.v
theories/RegSpec.v
theories/RegPos.v
theories/RegFix.v
theories/RegGauge.v
theories/RegOne.v
theories/RegSym.v
theories/RegTwo.v
theories/RegProps.v
theories/RegWitness.v
theories/RegLimitProps.v
theories/RegCellSpec.v
theories/RegCell.v
theories/RegCellMain.v
theories/RegState.v
theories/RegCellProps.v
theories/RegCellLimitProps.v
theories/IdmrgModel.v
theories/IdmrgSpec.v
theories/IdmrgFacts.v
theories/IdmrgMove.v
theories/IdmrgMain.v
theories/IdmrgRuns.v
theories/IdmrgOdd.v
theories/IdmrgGauge.v
theories/IdmrgWitness.v
theories/IdmrgProps.v
theories/FieldModel.v
theories/FieldSpec.v
theories/FieldChain.v
theories/FieldFacts.v
theories/FieldOps.v
theories/FieldPhi.v
theories/FieldLL.v
theories/FieldCore.v
theories/FieldGrid.v
theories/FieldCell.v
theories/FieldEdens.v
theories/FieldHerm.v
theories/FieldMain.v
theories/FieldRefute.v
theories/FieldProps.v
theories/VumpsModel.v
theories/VumpsSpec.v
theories/VumpsLeft.v
theories/VumpsBlock.v
theories/VumpsRight.v
theories/VumpsEnv.v
theories/VumpsGrad.v
theories/VumpsMixed.v
theories/VumpsGauge.v
theories/VumpsRuns.v
theories/VumpsTotal.v
theories/VumpsMain.v
theories/VumpsWitness.v
theories/VumpsCase.v
theories/VumpsRunCase.v
theories/VumpsProps.v
theories/HomModel.v
theories/HomSpec.v
theories/HomMean.v
theories/HomGrad.v
theories/HomMain.v
theories/HomRun.v
theories/HomCase.v
theories/HomToy.v
theories/HomProps.v
theories/CanonInfModel.v
theories/CanonInfSpec.v
theories/CanonInfLoop.v
theories/CanonInfMain.v
theories/CanonInfProps.v
theories/CanonInfLimitProps.v
theories/UnaryModel.v
theories/UnarySpec.v
theories/UnaryFacts.v
theories/UnaryProps.v
theories/BoundModel.v
theories/BoundSpec.v
theories/BoundFacts.v
theories/BoundMain.v
theories/BoundRun.v
theories/BoundCase.v
theories/BoundCaseC.v
theories/BoundProps.v
theories/BoundGauge.v
theories/BoundGaugeProps.v
theories/TruncModel.v
theories/TruncFacts.v
theories/TruncMain.v
theories/TruncOne.v
theories/TruncProps.v
theories/TruncLimitProps.v
theories/FineModel.v
theories/FineSpec.v
theories/FineFacts.v
theories/FineProps.v
theories/FineLimitProps.v
theories/PeriodicModel.v
theories/PeriodicSpec.v
theories/PeriodicFacts.v
theories/PeriodicMain.v
theories/PeriodicRing.v
theories/PeriodicState.v
theories/PeriodicProps.v
theories/PeriodicLimitProps.v
theories/TangentModel.v
theories/TangentSpec.v
theories/TangentFacts.v
theories/TangentMain.v
theories/TangentUpd.v
theories/TangentAll.v
theories/TangentProps.v
theories/TangentLimitProps.v
theories/CenterModel.v
theories/CenterSpec.v
theories/CenterFacts.v
theories/CenterProps.v
theories/RingBondModel.v
theories/RingBondSpec.v
theories/RingBondFacts.v
theories/RingBondProps.v
theories/RingBondCaseProps.v
theories/PhaseModel.v
theories/PhaseSpec.v
theories/PhaseFacts.v
theories/PhaseProps.v
theories/SpreadModel.v
theories/SpreadSpec.v
theories/SpreadFacts.v
theories/SpreadProps.v
theories/CutModel.v
theories/CutFacts.v
theories/CutProps.v
theories/SvdPhaseModel.v
theories/SvdPhaseFacts.v
theories/SvdPhaseProps.v
theories/BondEigModel.v
theories/BondEigSpec.v
theories/BondEigFacts.v
theories/BondEigProps.v
