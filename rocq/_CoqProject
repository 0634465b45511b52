-Q theories Verif
theories/Num.v
theories/Outcome.v
theories/FunModel.v
theories/FunSpec.v
theories/FunProofs.v
theories/FunProofs2.v
theories/FunDeriv.v
theories/FunDeriv2.v
theories/FunConcat.v
theories/FunProofs3.v
theories/FunProps.v
theories/LinAlg.v
theories/RSum.v
theories/RDeriv.v
theories/LegendreSpec.v
theories/LegendreModel.v
theories/LegendreMath.v
theories/RMat.v
theories/LegendreProofs.v
theories/LegendreProps.v
theories/RPoly.v
theories/LagrangeSpec.v
theories/LagrangeMath.v
theories/LagrangeModel.v
theories/LagrangeProofs.v
theories/LagrangeProps.v
theories/Basis0101Spec.v
theories/Basis0101Math.v
theories/Basis0101Model.v
theories/Basis0101Gram.v
theories/Basis0101Proofs.v
theories/Basis0101Props.v
theories/SplineSpec.v
theories/BasisModel.v
theories/BasisFn.v
theories/BasisProofs.v
theories/BasisProofs2.v
theories/BasisProofs3.v
theories/BasisProps.v
theories/ToolsSpec.v
theories/ToolsModel.v
theories/ToolsProofs.v
theories/ToolsProps.v
theories/GSplineModel.v
theories/GSplineProofs.v
theories/GSplineProofs2.v
theories/GSplineProofs3.v
theories/GSplineProofs4.v
theories/GSplineProofs5.v
theories/GSplineProofs6.v
theories/GSplineProps.v
theories/InterpModel.v
theories/InterpSpec.v
theories/RGauss.v
theories/SolverSpec.v
theories/InterpProofs.v
theories/InterpProofs2.v
theories/InterpProofs3.v
theories/InterpProofs4.v
theories/InterpProofs5.v
theories/InterpMath.v
theories/InterpMath2.v
theories/InterpProofs6.v
theories/InterpProofs7.v
theories/InterpProofs8.v
theories/InterpProps.v
theories/GLModel.v
theories/GLSpec.v
theories/GLProofs.v
theories/GLProofs2.v
theories/GLProps.v
theories/GLLModel.v
theories/GLFModel.v
theories/GLLProofs.v
theories/GLLProofs2.v
theories/GLLProofs3.v
theories/GLLProps.v
theories/GLFProofs.v
theories/GLFProofs2.v
theories/GLFProofs3.v
theories/GLFProps.v
theories/SobolevModel.v
theories/SobolevSpec.v
theories/SobolevProofs.v
theories/SobolevProofs2.v
theories/SobolevProofs3.v
theories/SobolevProps.v
theories/IntegralModel.v
theories/QuadSpec.v
theories/IntegralProofs.v
theories/QuadMath.v
theories/LobattoRoots.v
theories/IntegralProps.v
theories/OptionsModel.v
theories/OptionsSpec.v
theories/OptionsProps.v
theories/OptModel.v
theories/OptSpec.v
theories/OptProofs.v
theories/OptProps.v
theories/SerialModel.v
theories/SerialSpec.v
theories/SerialProofs.v
theories/SerialProps.v
theories/NewtonMath.v
theories/SturmMath.v
theories/LobattoLocate.v
theories/GLConv.v
theories/GLConv2.v
theories/GLConv3.v
theories/GLConvSpec.v
theories/GLConvProps.v
theories/GLConvProps2.v
theories/GLOModel.v
theories/GLOProofs.v
theories/GLOProps.v
theories/EqSpec.v
theories/EqProps.v
theories/IEEEModel.v
theories/IEEESpec.v
theories/IEEEProofs.v
theories/StabMath.v
theories/IEEEHorner.v
theories/IEEELegendre.v
theories/IEEESpline.v
theories/IEEEProps.v
theories/IEEEProps2.v
theories/LFModel.v
theories/LFProps.v
theories/IEEELagrange.v
theories/IEEEProps3.v
theories/ExnModel.v
theories/ExnProofs.v
theories/ExnProps.v
theories/IEEEFunSpec.v
theories/IEEEFunProofs.v
theories/IEEEFunProofs2.v
theories/IEEEFunProofs3.v
theories/IEEEFunProps.v
theories/IEEEDerivSpec.v
theories/IEEEDeriv.v
theories/IEEEDeriv2.v
theories/IEEEDeriv3.v
theories/IEEEDerivProps.v
theories/InterpGen.v
theories/IEEEInterpSpec.v
theories/IEEEInterp.v
theories/IEEEInterpProps.v
theories/BindModel.v
theories/BindSpec.v
theories/BindProofs.v
theories/BindProps.v
theories/PlotModel.v
theories/PlotSpec.v
theories/PlotProofs.v
theories/PlotProps.v
theories/IEEEScaleSpec.v
theories/IEEEScaleProps.v
theories/IEEEDSplineSpec.v
theories/DSplineGen.v
theories/IEEEDSpline.v
theories/IEEEDSpline2.v
theories/IEEEDSpline3.v
theories/IEEEDSplineProps.v
theories/IEEE01Spec.v
theories/IEEE01.v
theories/IEEE01Entry.v
theories/IEEE01Deriv.v
theories/IEEE01Props.v
theories/GLFDerProps.v
theories/PyFunProps.v
theories/EnergySpec.v
theories/EnergyMath.v
theories/EnergyProofs.v
theories/EnergyProps.v
theories/GL64Math.v
theories/GL64.v
theories/GL64Step.v
theories/GL64Spec.v
theories/GL64Guess.v
theories/GL64Weight.v
theories/GL64Nodes.v
theories/GL64Props.v
theories/Int64.v
theories/Int64Sum.v
theories/Int64Spec.v
theories/Int64Rule.v
theories/Int64Props.v
theories/InterpDep.v
theories/InterpDep2.v
theories/DependProps.v
theories/DependProps2.v
theories/FunDom.v
theories/DomProps.v
theories/CaseProps.v
theories/HeapModel.v
theories/HeapSpec.v
theories/HeapProofs.v
theories/HeapProofs2.v
theories/HeapProofs3.v
theories/HeapProofs4.v
theories/HeapProps.v
theories/RefModel.v
theories/RefSpec.v
theories/RefProofs.v
theories/RefProofs2.v
theories/RefProofs3.v
theories/RefProps.v
theories/MoveModel.v
theories/MoveSpec.v
theories/MoveProofs.v
theories/MoveProofs2.v
theories/MoveProofs3.v
theories/MoveProps.v
theories/ThreadModel.v
theories/ThreadSpec.v
theories/ThreadProofs.v
theories/ThreadProofs2.v
theories/ThreadProps.v
theories/ShareModel.v
theories/ShareSpec.v
theories/ShareProofs.v
theories/ShareProofs2.v
theories/ShareProofs3.v
theories/ShareProps.v
theories/Expr64Spec.v
theories/Expr64Proofs.v
theories/Expr64Proofs2.v
theories/Expr64Props.v
theories/Expr64L2.v
theories/Expr64Props2.v
theories/PyBasisModel.v
theories/PyBasisSpec.v
theories/PyBasisProps.v
theories/PyBasisProps2.v
theories/ReportModel.v
theories/ReportSpec.v
theories/ReportProps.v
theories/ConvModel.v
theories/ConvProps.v
theories/DiscProps.v
theories/PathIntModel.v
theories/PathIntProps.v
theories/UpdateModel.v
theories/UpdateProps.v
theories/Assumptions.v
theories/AgainProps.v
