-Q theories Verif
theories/Base.v
theories/Lin.v
theories/RLin.v
theories/RDer.v
theories/ConModel.v
theories/ConSpec.v
theories/ConProofs.v
theories/ConProofs2.v
theories/ConProofs3.v
theories/ConProofs4.v
theories/ConProofs5.v
theories/ConExamples.v
theories/P_Con.v
theories/LogModel.v
theories/StatsModel.v
theories/TrajModel.v
theories/KnotModel.v
theories/IlqrModel.v
theories/StatsSpec.v
theories/StatsProofs.v
theories/LogProofs.v
theories/StatLogProofs.v
theories/P_Stats.v
theories/IlqrSpec.v
theories/IlqrFrame.v
theories/IlqrProofs.v
theories/IlqrProofs2.v
theories/IlqrProofs3.v
theories/IlqrProofs4.v
theories/IlqrProofs5.v
theories/IlqrProofs6.v
theories/CostInst.v
theories/IlqrExamples.v
theories/AlModel.v
theories/AlProofs.v
theories/AlProofs2.v
theories/AlProofs3.v
theories/AlProofs4.v
theories/AlExamples.v
theories/P_Ilqr.v
theories/P_Al.v
theories/ProblemModel.v
theories/ProblemSpec.v
theories/ProblemProofs.v
theories/ProblemProofs2.v
theories/ProblemProofs3.v
theories/ProblemProofs4.v
theories/P_Problem.v
theories/P_Traj.v
theories/DynModel.v
theories/DynSpec.v
theories/DynProofs.v
theories/ExampleModel.v
theories/UtilModel.v
theories/ExampleProofs.v
theories/ExampleSpec.v
theories/ExampleProofs2.v
theories/ExampleProofs3.v
theories/P_Dyn.v
theories/LsSpec.v
theories/IlqrProofs7.v
theories/P_Ls.v
theories/P_Examples.v
theories/UtilSpec.v
theories/UtilProofs.v
theories/UtilProofs2.v
theories/P_Util.v
theories/QueueSpec.v
theories/QueueModel.v
theories/QueueProofs.v
theories/QueueProofs2.v
theories/QueueProofs3.v
theories/QueueProofs4.v
theories/P_Queue.v
theories/LqSpec.v
theories/LltProofs.v
theories/LltLow.v
theories/LqProofs.v
theories/LqProofs2.v
theories/LqProofs3.v
theories/LqProbSpec.v
theories/LqProofs4.v
theories/LqProofs5.v
theories/LqProofs6.v
theories/LqProofs7.v
theories/LqProofs8.v
theories/TotalProofs.v
theories/LqInst.v
theories/P_Knot.v
theories/P_Exp.v
theories/P_Log.v
theories/P_Lqr.v
theories/AlqSpec.v
theories/AlqProofs.v
theories/AlqProofs2.v
theories/AlqProofs3.v
theories/AlqProofs4.v
theories/AlTotal.v
theories/P_Alq.v
theories/PoolSpec.v
theories/PoolModel.v
theories/PoolProofs.v
theories/PoolProofs2.v
theories/PoolProofs3.v
theories/PoolProofs4.v
theories/PoolProofs5.v
theories/PoolProofs6.v
theories/PoolProofs7.v
theories/PoolProofs8.v
theories/P_Pool.v
theories/TaskSpec.v
theories/TaskModel.v
theories/ParModel.v
theories/ParProofs.v
theories/ParProofs2.v
theories/ParProofs3.v
theories/FloatBridge.v
theories/TaskProofs.v
theories/TaskFloat.v
theories/TaskProofs2.v
theories/P_Task.v
theories/TimerSpec.v
theories/TimerModel.v
theories/TimerProofs.v
theories/TimerProofs2.v
theories/TimerProofs3.v
theories/P_Timer.v
theories/ExProbModel.v
theories/ExProbSpec.v
theories/ExProbProofs.v
theories/ExProbProofs2.v
theories/ExProbProofs3.v
theories/ExProbProofs4.v
theories/ExProbProofs5.v
theories/ExProbProofs6.v
theories/ExProbProofs7.v
theories/P_ExProb.v
theories/FdSpec.v
theories/FdProofs.v
theories/P_Fd.v
theories/TimerIoSpec.v
theories/TimerIoModel.v
theories/TimerIoProofs.v
theories/P_TimerIo.v
theories/StatsMoveModel.v
theories/StatsMoveSpec.v
theories/StatsMoveProofs.v
theories/P_StatsMove.v
theories/ResolveSpec.v
theories/ResolveProofs.v
theories/ResolveProofs2.v
theories/P_Resolve.v
theories/SolveLogSpec.v
theories/SolveLogProofs.v
theories/SolveLogProofs2.v
theories/SolveLogProofs3.v
theories/P_SolveLog.v
theories/SolverObjModel.v
theories/SolverObjSpec.v
theories/SolverObjProofs.v
theories/SolverObjProofs2.v
theories/SolverObjProofs3.v
theories/P_SolverObj.v
theories/ParSolveModel.v
theories/ParSolveProofs.v
theories/ParSolveProofs2.v
theories/ParSolveProofs3.v
theories/P_ParSolve.v
theories/PoolMoveModel.v
theories/PoolMoveProofs.v
theories/P_PoolMove.v
theories/NlSpec.v
theories/NlProofs.v
theories/NlProofs2.v
theories/NlProofs3.v
theories/NlProofs4.v
theories/NlExamples.v
theories/P_Nl.v
theories/NlAlSpec.v
theories/NlAlProofs.v
theories/NlAlProofs2.v
theories/P_NlAl.v
theories/NlLibProofs.v
theories/NlLibProofs2.v
theories/NlKeepProofs.v
theories/P_NlLib.v
theories/NlConvexSpec.v
theories/NlConvexProofs.v
theories/P_NlConvex.v
theories/FuncModel.v
theories/P_Func.v
theories/LaunchModel.v
theories/LaunchProofs.v
theories/P_Launch.v
theories/ThrowModel.v
theories/ThrowProofs.v
theories/P_Throw.v
theories/ShareModel.v
theories/ShareProofs.v
theories/P_Share.v
theories/RegFloat.v
theories/RegFloat2.v
theories/RegTotal.v
theories/P_RegFloat.v
