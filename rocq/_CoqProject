-Q theories Verif
theories/Model/Base.v
theories/Model/Units.v
theories/Model/Settings.v
theories/Model/Noise.v
theories/Spec/UnitSpec.v
theories/Spec/UnitHistory.v
theories/Proofs/UnitsProofs.v
theories/Model/Elements.v
theories/Spec/ElementSpec.v
theories/Proofs/ElementsProofs.v
theories/Properties/P_Units.v
theories/Properties/P_Elements.v
theories/Numerics/RStruct.v
theories/Model/Edge.v
theories/Model/LCWB.v
theories/Spec/GraphSpec.v
theories/Spec/CircuitSpec.v
theories/Numerics/Bridge.v
theories/Proofs/EdgeProofs.v
theories/Proofs/LCWBProofs.v
theories/Proofs/BookProofs.v
theories/Proofs/SensProofs.v
theories/Proofs/EdgeProofs2.v
theories/Proofs/PosDefProofs.v
theories/Properties/P_Circuit.v
theories/Properties/P_Invertible.v
theories/Spec/LinSpec.v
theories/Spec/FluxSpec.v
theories/Model/Rounding.v
theories/Model/FluxDist.v
theories/Proofs/RoundProofs.v
theories/Proofs/FluxProofs.v
theories/Proofs/FluxBook.v
theories/Proofs/FluxProofs2.v
theories/Proofs/FluxProofs3.v
theories/Proofs/FluxWitness.v
theories/Properties/P_Flux.v
theories/Properties/P_Rounding.v
theories/Model/Accuracy.v
theories/Model/Transform.v
theories/Spec/TransSpec.v
theories/Spec/NetSpec.v
theories/Proofs/AccProofs.v
theories/Proofs/NetProofs.v
theories/Proofs/TransProofs.v
theories/Proofs/TransProofs1.v
theories/Proofs/TransProofs2.v
theories/Proofs/TransProofs3.v
theories/Proofs/TransProofs4.v
theories/Proofs/GramProofs.v
theories/Proofs/TransProofs5.v
theories/Proofs/TransProofs6.v
theories/Proofs/TransCase.v
theories/Properties/P_Transform.v
theories/Model/Trunc.v
theories/Spec/RadixSpec.v
theories/Proofs/TruncProofs.v
theories/Properties/P_Trunc.v
theories/Model/HamConst.v
theories/Model/Op.v
theories/Model/Ham.v
theories/Spec/OpSpec.v
theories/Spec/PhysSpec.v
theories/Proofs/HamConstProofs.v
theories/Proofs/OpProofs.v
theories/Proofs/HamProofs.v
theories/Proofs/HamProofs2.v
theories/Proofs/HamProofs3.v
theories/Proofs/HamProofs4.v
theories/Proofs/HamProofs5.v
theories/Proofs/HamProofs6.v
theories/Proofs/RemovalCase.v
theories/Properties/P_Ops.v
theories/Properties/P_Ops2.v
theories/Model/Conv.v
theories/Spec/ConvSpec.v
theories/Proofs/ConvProofs.v
theories/Properties/P_Conv.v
theories/Model/Diag.v
theories/Model/CircuitSM.v
theories/Proofs/SMBook.v
theories/Spec/SessionSpec.v
theories/Proofs/SMProofs.v
theories/Proofs/SMProofs2.v
theories/Proofs/SMProofs3.v
theories/Proofs/SessionCase.v
theories/Properties/P_State.v
theories/Spec/EigSpec.v
theories/Proofs/DiagProofs.v
theories/Properties/P_Diag.v
theories/Model/Copy.v
theories/Spec/CopySpec.v
theories/Proofs/CopyProofs.v
theories/Proofs/CopyProofs2.v
theories/Proofs/CopyProofs3.v
theories/Proofs/CopyBook.v
theories/Proofs/RenameProofs.v
theories/Proofs/CopySession.v
theories/Proofs/CopyProofs4.v
theories/Proofs/CopyCase.v
theories/Properties/P_Copy.v
theories/Model/Thermal.v
theories/Spec/ThermalSpec.v
theories/Proofs/ThermalProofs.v
theories/Model/PartialConst.v
theories/Model/Partial.v
theories/Model/RateConst.v
theories/Model/DecRate.v
theories/Model/TorchRates.v
theories/Spec/DecSpec.v
theories/Proofs/DecProofs.v
theories/Proofs/DecProofs2.v
theories/Proofs/MemProofs.v
theories/Proofs/DecProofs3.v
theories/Properties/P_Thermal.v
theories/Properties/P_Decoherence.v
theories/Spec/GradSpec.v
theories/Proofs/CDeriv.v
theories/Proofs/GradProofs.v
theories/Properties/P_Gradient.v
theories/Spec/PerturbSpec.v
theories/Proofs/PerturbProofs.v
theories/Proofs/PerturbProofs2.v
theories/Properties/P_Perturb.v
theories/Spec/RateGradSpec.v
theories/Proofs/SecondOrder.v
theories/Proofs/RateGradProofs.v
theories/Proofs/RateGradProofs2.v
theories/Proofs/SymProofs.v
theories/Proofs/NgProofs.v
theories/Properties/P_Ng.v
theories/Proofs/RateGradProofs3.v
theories/Proofs/RateGradProofs4.v
theories/Proofs/RateGradProofs5.v
theories/Properties/P_RateGrad.v
theories/Proofs/MatDeriv.v
theories/Spec/CapGradSpec.v
theories/Proofs/CapGrad.v
theories/Proofs/CapCase.v
theories/Properties/P_CapGrad.v
theories/Model/System.v
theories/Spec/SystemSpec.v
theories/Proofs/SystemProofs.v
theories/Proofs/SystemProofs2.v
theories/Proofs/SystemProofs3.v
theories/Proofs/SystemCase.v
theories/Proofs/SystemCase2.v
theories/Proofs/SystemCase3.v
theories/Proofs/SystemCase4.v
theories/Proofs/SystemCase5.v
theories/Properties/P_System.v
theories/Properties/P_SystemHam.v
theories/Model/Sweep.v
theories/Spec/SweepSpec.v
theories/Proofs/SweepProofs.v
theories/Properties/P_Sweep.v
theories/Model/Symbolic.v
theories/Spec/SymbolicSpec.v
theories/Proofs/SymbolicProofs.v
theories/Proofs/SymbolicProofs2.v
theories/Properties/P_Symbolic.v
theories/Model/Texts.v
theories/Spec/TextSpec.v
theories/Proofs/TextProofs.v
theories/Properties/P_Texts.v
theories/Numerics/Gauss.v
theories/Spec/HermiteSpec.v
theories/Spec/LineSpec.v
theories/Spec/PhaseSpec.v
theories/Numerics/HermiteFn.v
theories/Model/PhaseConst.v
theories/Model/PhaseCoord.v
theories/Proofs/PhaseProofs.v
theories/Proofs/LineProofs.v
theories/Proofs/PhaseArray.v
theories/Proofs/PhaseNorm.v
theories/Proofs/PhaseMulti.v
theories/Properties/P_Phase.v
theories/Model/TorchDiag.v
theories/Spec/EigGradSpec.v
theories/Proofs/EigGradProofs.v
theories/Proofs/EigGradProofs2.v
theories/Proofs/EigGradProofs3.v
theories/Proofs/EigGradProofs4.v
theories/Properties/P_TorchDiag.v
theories/Model/Operators.v
theories/Spec/HalfSpec.v
theories/Proofs/HalfProofs.v
theories/Properties/P_Operators.v
theories/Proofs/GradCalc.v
theories/Spec/RelaxSpec.v
theories/Proofs/RelaxProofs.v
theories/Proofs/RelaxProofs2.v
theories/Properties/P_Relax.v
theories/Spec/BesselSpec.v
theories/Model/TorchFuns.v
theories/Proofs/TorchFunsProofs.v
theories/Properties/P_TorchFuns.v
theories/Spec/CompositeSpec.v
theories/Proofs/CompositeProofs.v
theories/Proofs/CompositeProofs2.v
theories/Proofs/CompositeProofs3.v
theories/Properties/P_Composite.v
theories/Model/Matrix.v
theories/Spec/MatrixSpec.v
theories/Properties/P_Matrix.v
theories/Model/Listing.v
theories/Spec/ListingSpec.v
theories/Proofs/ListingProofs.v
theories/Properties/P_Listing.v
theories/Model/Grads.v
theories/Spec/GradsSpec.v
theories/Proofs/GradsProofs.v
theories/Properties/P_Grads.v
theories/Model/Construct.v
theories/Spec/ConstructSpec.v
theories/Properties/P_Construct.v
theories/Spec/SymmetrySpec.v
theories/Proofs/SymmetryProofs.v
theories/Proofs/SymmetryProofs2.v
theories/Proofs/SymmetryProofs3.v
theories/Proofs/SymmetryProofs4.v
theories/Properties/P_Symmetry.v
theories/Numerics/Spectral.v
theories/Spec/LevelsSpec.v
theories/Proofs/MinMaxProofs.v
theories/Proofs/ChargeShiftProofs.v
theories/Proofs/LevelProofs.v
theories/Properties/P_Levels.v
theories/Properties/P_MatEl.v
theories/Proofs/ContractProofs.v
theories/Properties/P_Lipschitz.v
theories/Proofs/ExpProofs.v
theories/Proofs/ExpProofs2.v
theories/Properties/P_Displace.v
theories/Spec/LowestSpec.v
theories/Properties/P_Lowest.v
theories/Spec/PhotonSpec.v
theories/Proofs/PhotonProofs.v
theories/Properties/P_Photons.v
theories/Spec/RelabelSpec.v
theories/Proofs/RelabelProofs.v
theories/Proofs/RelabelProofs2.v
theories/Properties/P_Relabel.v
theories/Spec/GaugeSpec.v
theories/Proofs/GaugeProofs.v
theories/Proofs/GaugeProofs2.v
theories/Proofs/FluxGauge.v
theories/Proofs/GaugeWitness.v
theories/Properties/P_Gauge.v
theories/Spec/ScaleSpec.v
theories/Proofs/ScaleProofs.v
theories/Proofs/ScaleBook.v
theories/Properties/P_Scale.v
theories/Spec/PartsSpec.v
theories/Proofs/PartsProofs.v
theories/Properties/P_Parts.v
theories/Spec/OneNodeSpec.v
theories/Proofs/OneNode.v
theories/Proofs/OneNodeTrans.v
theories/Proofs/OneNodeHam.v
theories/Properties/P_OneNode.v
theories/Model/Storage.v
theories/Spec/StorageSpec.v
theories/Proofs/StorageProofs.v
theories/Properties/P_Storage.v
theories/Model/Wrappers.v
theories/Spec/WrapperSpec.v
theories/Properties/P_Wrappers.v
theories/Spec/LinearSpec.v
theories/Proofs/LinearKeys.v
theories/Proofs/LinearProofs.v
theories/Proofs/LinearLevels.v
theories/Properties/P_Linear.v
theories/Spec/LossSpec.v
theories/Proofs/LossKeys.v
theories/Proofs/LossProofs.v
theories/Proofs/LossPhotons.v
theories/Proofs/LossSession.v
theories/Properties/P_Loss.v
theories/Spec/SweetSpec.v
theories/Proofs/SweetProofs.v
theories/Proofs/SweetProofs2.v
theories/Properties/P_Sweet.v
theories/Model/SystemDims.v
theories/Proofs/SystemDimsProofs.v
theories/Properties/P_SystemDims.v
theories/Spec/OrderSpec.v
theories/Proofs/OrderProofs.v
theories/Proofs/OrderProofs2.v
theories/Properties/P_Order.v
theories/Spec/ParallelSpec.v
theories/Proofs/ParallelProofs.v
theories/Properties/P_Parallel.v
theories/Spec/SumSpec.v
theories/Proofs/SumProofs.v
theories/Properties/P_Sum.v
theories/Proofs/SimpleProofs.v
theories/Proofs/GroundProofs.v
theories/Properties/P_Simple.v
theories/Proofs/FluxGround.v
theories/Properties/P_Strong.v
theories/Spec/RuleSpec.v
theories/Proofs/ChargeRule.v
theories/Properties/P_Rule.v
theories/Proofs/OffsetGround.v
theories/Properties/P_Offset.v
theories/Properties/P_Bias.v
theories/Model/Names.v
theories/Spec/NameSpec.v
theories/Properties/P_Names.v
theories/Spec/FanSpec.v
theories/Proofs/FanProofs.v
theories/Properties/P_Fan.v
theories/Properties/P_Drift.v
theories/Spec/ResidualSpec.v
theories/Proofs/ResidualProofs.v
theories/Properties/P_Residual.v
