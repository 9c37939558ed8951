-Q theories Verif
theories/Ast.v
theories/ExprModel.v
theories/BlackboardModel.v
theories/BlackboardSpec.v
theories/BlackboardProofs.v
theories/ExprSpec.v
theories/ExprProofs1.v
theories/BlackboardProofs2.v
theories/ExprProofs2.v
theories/ExprProofs3.v
theories/ExprCases.v
theories/BlackboardCases.v
theories/BlackboardProps.v
theories/Bool3Model.v
theories/Bool3Spec.v
theories/Bool3Proofs.v
theories/Bool3Props.v
theories/ElimModel.v
theories/DecompModel.v
theories/VerifyModel.v
theories/BoundVModel.v
theories/SeqInterp.v
theories/ElimSpec.v
theories/BoundVSpec.v
theories/IntUtilModel.v
theories/FactModel.v
theories/FactSpec.v
theories/IntUtilSpec.v
theories/IntUtilProofs.v
theories/FactProofs.v
theories/FactProofs2.v
theories/ElimProofs.v
theories/NonLinModel.v
theories/NonLinSpec.v
theories/NonLinProofs.v
theories/BoundVProofs.v
theories/Fld.v
theories/VerifySpec.v
theories/VerifyProofs.v
theories/VerifyProofs2.v
theories/VerifyProofs3.v
theories/VerifyCases.v
theories/BoundVProps.v
theories/OrderRedSpec.v
theories/CplxF.v
theories/FPoly.v
theories/RootModel.v
theories/FindRootModel.v
theories/LinSolve.v
theories/SeqSpec.v
theories/SumPolyModel.v
theories/SolverModel.v
theories/CSolModel.v
theories/CSolSpec.v
theories/ClassModel.v
theories/ClassSpec.v
theories/ClassProofs.v
theories/ClassProofs2.v
theories/ClassProofs3.v
theories/DecompSpec.v
theories/DecompProofs.v
theories/SeqLemmas.v
theories/ShiftOp.v
theories/GenSol.v
theories/SolverSpec.v
theories/SumPolyProofs.v
theories/SolverProofs1.v
theories/SolverProofs2.v
theories/SolverProofs3.v
theories/SolverProofs4.v
theories/SolverProps.v
theories/CSolProofs.v
theories/FindRootSpec.v
theories/PolyMore.v
theories/NestedProofs.v
theories/RatRootProofs.v
theories/RootSpec.v
theories/RootProofs.v
theories/RootProofs2.v
theories/SearchProofs.v
theories/FindRootProofs.v
theories/FindRootProofs2.v
theories/FindRootProofs3.v
theories/FindRootProofs4.v
theories/CSolProofs2.v
theories/ElimProofs2.v
theories/ElimCases.v
theories/NonLinProofs2.v
theories/NonLinCases.v
theories/ClassCases.v
theories/FindRootProofs5.v
theories/FindRootProofs6.v
theories/FindRootProofs7.v
theories/CSolCases.v
theories/CSolProps.v
theories/ClassProps.v
theories/CollectModel.v
theories/CollectSpec.v
theories/FactCases.v
theories/NumDenModel.v
theories/NumDenSpec.v
theories/NumDenProofs.v
theories/NumDenProofs2.v
theories/NumDenCases.v
theories/ProdSpec.v
theories/ProdProofs.v
theories/ProdModel.v
theories/WClassModel.v
theories/WClassSpec.v
theories/WClassProofs.v
theories/WClassProofs2.v
theories/ProdProofs2.v
theories/CollectProofs.v
theories/FactRwModel.v
theories/FactRwSpec.v
theories/ProdProofs3.v
theories/SumSimpModel.v
theories/SumSimpSpec.v
theories/SumSimpProofs.v
theories/SumSimpProofs2.v
theories/FactRwProofs.v
theories/FactRwProofs2.v
theories/CollectProofs2.v
theories/CollectProofs3.v
theories/DecompCases.v
theories/CollectProps.v
theories/CondModel.v
theories/CondSpec.v
theories/CondProofs.v
theories/RecModel.v
theories/CondProofs2.v
theories/CondProps.v
theories/DecompProofs2.v
theories/DecompProps.v
theories/DomModel.v
theories/DomSpec.v
theories/DomProofs.v
theories/FuncEqModel.v
theories/FuncEqSpec.v
theories/FuncEqProofs.v
theories/MonoModel.v
theories/MonoSpec.v
theories/MonoProofs.v
theories/DomProps.v
theories/DrvModel.v
theories/DrvSpec.v
theories/DrvProofs.v
theories/DrvProofs2.v
theories/DrvCases.v
theories/DrvProps.v
theories/ElimProps.v
theories/ExprProps.v
theories/FactProps.v
theories/FactRwProps.v
theories/FindRootProps.v
theories/FracModel.v
theories/FracProofs.v
theories/FracProps.v
theories/FuncEqProofs2.v
theories/FuncEqProofs3.v
theories/FuncEqProps.v
theories/GenBndModel.v
theories/GenBndSpec.v
theories/GenBndProofs.v
theories/GenBndProofs2.v
theories/GenBndProps.v
theories/GiacModel.v
theories/GiacSpec.v
theories/GiacProofs.v
theories/GiacProofs2.v
theories/GiacProofs3.v
theories/GiacProps.v
theories/GosperModel.v
theories/GosperSpec.v
theories/GosperProofs1.v
theories/GosperProofs2.v
theories/GosperProofs3.v
theories/PolyRing.v
theories/GosperProofs4.v
theories/GosperProps.v
theories/HypModel.v
theories/HypSpec.v
theories/HypProofs.v
theories/HypProofs2.v
theories/HypCases.v
theories/HypProps.v
theories/IPolModel.v
theories/IPolSpec.v
theories/IPolProofs.v
theories/IPolProofs2.v
theories/IPolProps.v
theories/IntUtilProps.v
theories/InvModel.v
theories/InvSpec.v
theories/InvProofs.v
theories/InvProps.v
theories/IvlModel.v
theories/IpwModel.v
theories/IvlSpec.v
theories/IpwSpec.v
theories/IvlProofs.v
theories/IvlProofs2.v
theories/IvlProofs3.v
theories/IvlProofs4.v
theories/IvlProofs5.v
theories/IvlProofs6.v
theories/IpwProofs.v
theories/IpwProofs2.v
theories/IpwProofs3.v
theories/ItgModel.v
theories/ItgReal.v
theories/ItgSpec.v
theories/ItgProofs.v
theories/IvlProofs7.v
theories/IvlProofs8.v
theories/IvlCases.v
theories/IvlCases2.v
theories/IvlMult.v
theories/IvlFinal.v
theories/ItgCases.v
theories/IpwCases.v
theories/IpwProps.v
theories/ItgProps.v
theories/IvlProps.v
theories/IvlTightSpec.v
theories/IvlTight.v
theories/IvlTightProps.v
theories/LogModel.v
theories/NumFormModel.v
theories/NumFormSpec.v
theories/NumFormProofs.v
theories/LogProofs.v
theories/LogSpec.v
theories/LogProofs2.v
theories/LogProofs3.v
theories/LogProps.v
theories/MaxModel.v
theories/MaxSpec.v
theories/MaxProofs.v
theories/MaxProps.v
theories/MmlSpec.v
theories/MmlModel.v
theories/MmlProofs.v
theories/MmlBad.v
theories/MmlRead.v
theories/MmlProps.v
theories/MonoProps.v
theories/MultiModel.v
theories/MultiSpec.v
theories/MultiProofs.v
theories/MultiProofs2.v
theories/MultiCases.v
theories/MultiProofs3.v
theories/MultiProps.v
theories/NLVerModel.v
theories/NLVerSpec.v
theories/PowModel.v
theories/PowSpec.v
theories/PowProofs.v
theories/NLVerProofs.v
theories/NLVerCases.v
theories/NLVerProps.v
theories/NamesModel.v
theories/NamesSpec.v
theories/NamesProofs.v
theories/NamesProps.v
theories/NhpModel.v
theories/NhpProofs.v
theories/NhpProofs2.v
theories/NhpFinal.v
theories/NhpProps.v
theories/NonBndModel.v
theories/NonBndSpec.v
theories/NonBndProofs.v
theories/NonBndProps.v
theories/NonLinProps.v
theories/NumFormProofs2.v
theories/NumFormProps.v
theories/OrdRwModel.v
theories/OrdRwSpec.v
theories/OrdRwProofs.v
theories/OrdRwProps.v
theories/OrderRedModel.v
theories/OrderRedProofs.v
theories/OrderRedCases.v
theories/OrderRedProps.v
theories/PFacModel.v
theories/PFacSpec.v
theories/PFacProofs.v
theories/PFacProps.v
theories/PowProps.v
theories/ProdProps.v
theories/PwdModel.v
theories/PwdSpec.v
theories/PwdProofs.v
theories/PwdProps.v
theories/RSolModel.v
theories/RSolSpec.v
theories/RSolProofs.v
theories/RSolCases.v
theories/RSolProps.v
theories/RecSpec.v
theories/RecProofs.v
theories/RecProofs2.v
theories/RecProofs3.v
theories/RecCases.v
theories/RecMemModel.v
theories/RecMemSpec.v
theories/RecMemProofs.v
theories/RecProofs4.v
theories/RecProps.v
theories/ResModel.v
theories/ResProofs.v
theories/ResProofs2.v
theories/ResProps.v
theories/RngModel.v
theories/RngSpec.v
theories/RngProofs.v
theories/RngProps.v
theories/RootProps.v
theories/SimpDrvModel.v
theories/SimpDrvSpec.v
theories/SimpDrvProofs.v
theories/SumSimpProofs3.v
theories/SumSimpProps.v
theories/SimpDrvProofs2.v
theories/SimpDrvProps.v
theories/SqrModel.v
theories/SqrSpec.v
theories/SqrProofs.v
theories/SqrProps.v
theories/SrchModel.v
theories/SrchSpec.v
theories/SrchProofs.v
theories/SrchProofs2.v
theories/SrchProofs3.v
theories/SrchProps.v
theories/SumPolyProps.v
theories/TrigModel.v
theories/TrigProofs.v
theories/TrigProps.v
theories/VSolModel.v
theories/VSolProofs.v
theories/VSolCases.v
theories/VSolProps.v
theories/VerifyProps.v
theories/WAvgModel.v
theories/WAvgSpec.v
theories/WAvgProofs.v
theories/WAvgProps.v
theories/WClassProofs3.v
theories/WClassProps.v
theories/WSolModel.v
theories/WSolSpec.v
theories/WSolProofs.v
theories/WSolProofs2.v
theories/WSolCases.v
theories/WSolProps.v
theories/XargModel.v
theories/XargProofs.v
theories/XargProofs2.v
theories/XargProps.v
theories/ZeilModel.v
theories/ZeilSpec.v
theories/ZeilProofs.v
theories/ZeilProofs2.v
theories/ZeilCases.v
theories/ZeilProps.v
