-Q theories Verif
theories/PidModel.v
theories/PidSpec.v
theories/PidFacts.v
theories/PidProps.v
theories/LinAlg.v
theories/EkfModel.v
theories/EkfSpec.v
theories/EkfFacts.v
theories/EkfProps.v
theories/PolyFacts.v
theories/MeshModel.v
theories/MeshSpec.v
theories/MeshFacts.v
theories/MeshQuad.v
theories/MeshEval.v
theories/MeshProps.v
theories/MeshCount.v
theories/Calc.v
theories/SparseModel.v
theories/SparseFacts.v
theories/SparseProps.v
theories/MeshFunModel.v
theories/MeshFunFacts.v
theories/MeshFunLoops.v
theories/MeshFunDyn.v
theories/MeshFunProps.v
theories/MeshFunTraj.v
theories/MeshFunCases.v
theories/QF.v
theories/QpModel.v
theories/QpSpec.v
theories/QpFacts.v
theories/QpAdmm.v
theories/QpLoop.v
theories/QpProps.v
theories/QpConv.v
theories/QpCodes.v
theories/QpInfeas.v
theories/QpCex.v
theories/QpExamples.v
theories/NlpModel.v
theories/NlpFacts.v
theories/NlpProps.v
theories/NlpSol.v
theories/OqpModel.v
theories/OqpFacts.v
theories/OqpProps.v
theories/OqpCost.v
theories/OqpCases.v
theories/MpcModel.v
theories/MpcHist.v
theories/MpcCost.v
theories/MpcRows.v
theories/MpcCases.v
theories/MpcCases2.v
theories/AsifModel.v
theories/AsifProps.v
theories/AsifThms.v
theories/AsifThms2.v
theories/AsifThms3.v
theories/AsifCases.v
theories/TimeModel.v
theories/TimeProps.v
theories/TimeCases.v
theories/FlatModel.v
theories/FlatSpec.v
theories/FlatFacts.v
theories/FlatProps.v
theories/FlatThms.v
theories/FlatThms2.v
theories/FlatBern.v
theories/FlatThms3.v
theories/FlatGroup.v
theories/FlatCases.v
theories/FlatCases2.v
theories/IpoptModel.v
theories/IpoptProps.v
theories/IpoptOcp.v
theories/OsqpModel.v
theories/OsqpProps.v
theories/IpoptCases.v
theories/EndQp.v
theories/EndAsif.v
theories/EndCases.v
theories/EndMpc.v
theories/MpcPat.v
theories/EndRef.v
theories/EndMpcCases.v
theories/EndUp.v
theories/EndUpCex.v
theories/QpTime.v
theories/QpObj.v
theories/QpPolish.v
theories/QpSym.v
theories/QpSymLoop.v
theories/QpSymThms.v
theories/QpSymQ.v
theories/QpSymCases.v
theories/LoopModel.v
theories/LoopFacts.v
theories/LoopEkf.v
theories/LoopAsif.v
theories/LoopCases.v
theories/FMeshModel.v
theories/FMeshFacts.v
theories/FMeshProps.v
theories/FMeshThms.v
theories/FMeshNodes.v
theories/FMeshCases.v
theories/MeshTransfer.v
theories/NlpRefine.v
theories/NlpRefineThms.v
theories/DerivModel.v
theories/DerivProps.v
theories/IpoptStart.v
theories/FPidModel.v
theories/FPidFacts.v
theories/FPidProps.v
theories/FPidCases.v
theories/QpOwn.v
theories/QpEquil.v
theories/FPidOut.v
theories/FQpModel.v
theories/FQpFacts.v
theories/FQpProps.v
theories/FQpCases.v
theories/FInfModel.v
theories/FInfProps.v
theories/FInfCases.v
theories/FScaleModel.v
theories/FScaleProps.v
theories/FScaleCases.v
theories/FEvalModel.v
theories/FEvalProps.v
theories/FEvalCases.v
theories/FEkfModel.v
theories/FEkfProps.v
theories/FEkfCases.v
theories/FEkfRun.v
theories/FEstModel.v
theories/FEstProps.v
theories/FEstCases.v
theories/FPredModel.v
theories/FPredProps.v
theories/FPredWalk.v
theories/FPredCases.v
theories/FFiltModel.v
theories/FFiltProps.v
theories/FFiltCases.v
theories/FOcpModel.v
theories/FOcpProps.v
