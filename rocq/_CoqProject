-Q theories Verif
theories/GaloisModel.v
theories/GF2Poly.v
theories/GaloisOrder.v
theories/GaloisProofs.v
theories/GaloisSpec.v
theories/GaloisHist.v
theories/CodecModel.v
theories/CodecProofs.v
theories/P_Galois.v
theories/GFField.v
theories/MathModel.v
theories/MathProofs.v
theories/MatProofs.v
theories/P_Math.v
theories/SharingModel.v
theories/SharingSpec.v
theories/SharingProofs.v
theories/PrivacyProofs.v
theories/P_Sharing.v
theories/CircuitModel.v
theories/CircuitSpec.v
theories/CircuitProofs.v
theories/CircuitEval.v
theories/P_Circuit.v
theories/ProtoIdModel.v
theories/ProtoIdProofs.v
theories/P_ProtoId.v
theories/MachineModel.v
theories/MachineProofs.v
theories/MachineBuild.v
theories/MachineSync.v
theories/P_Machine.v
theories/RouterModel.v
theories/RouterSpec.v
theories/RouterProofs.v
theories/P_Router.v
theories/FrameModel.v
theories/FrameProofs.v
theories/P_Frame.v
theories/RouteModel.v
theories/RouteSpec.v
theories/RouteProofs.v
theories/P_Route.v
theories/Realize.v
theories/CoreModel.v
theories/CoreSpec.v
theories/CoreProofs.v
theories/RandTransProofs.v
theories/LeaderView.v
theories/GFCodec.v
theories/P_Core.v
theories/PreprocModel.v
theories/PreprocSpec.v
theories/PreprocProofs.v
theories/PreprocRun.v
theories/DummyProofs.v
theories/PreprocCodec.v
theories/P_Preproc.v
theories/LpnModel.v
theories/LpnSpec.v
theories/LpnProofs.v
theories/P_Lpn.v
theories/GarbleSpec.v
theories/GarbleModel.v
theories/RingIds.v
theories/GarbleGates.v
theories/GarbleTf.v
theories/GarbleWires.v
theories/GarbleRun.v
theories/P_Garble.v
theories/MatFileModel.v
theories/P_MatFile.v
theories/PackWf.v
theories/PipeModel.v
theories/P_Phase.v
theories/IdLength.v
theories/BinModel.v
theories/P_Bin.v
theories/P_BinPre.v
theories/P_Pipeline.v
theories/P_Size.v
theories/StatsModel.v
theories/P_Stats.v
theories/SaveModel.v
theories/SaveProofs.v
theories/P_Save.v
theories/ViewSpec.v
theories/ViewProofs.v
theories/SentProofs.v
theories/P_View.v
theories/LeakProofs.v
theories/P_Leak.v
theories/TwinProofs.v
theories/TwinCore.v
theories/TwinRand.v
theories/TwinTf.v
theories/HideSpec.v
theories/HideProofs.v
theories/TwinDeal.v
theories/TwinErr.v
theories/TwinWires.v
theories/TwinGates.v
theories/TwinRun.v
theories/P_Secrecy.v
theories/Triangle.v
theories/DiceSpec.v
theories/DiceProofs.v
theories/P_Exact.v
theories/TwinPre.v
theories/ExactErr.v
theories/ExactPre.v
theories/PipeDiceSpec.v
theories/PipeLift.v
theories/PipeDice.v
theories/P_PipeSecrecy.v
theories/SupmatModel.v
theories/P_Supmat.v
theories/StackModel.v
theories/StackSpec.v
theories/StackProofs.v
theories/StackRun.v
theories/StackRounds.v
theories/StackNets.v
theories/P_Stack.v
theories/Bill.v
theories/BillProto.v
theories/TrafficSpec.v
theories/TrafficProofs.v
theories/P_Traffic.v
theories/EstModel.v
theories/P_Estimate.v
theories/P_PipeExact.v
theories/P_Noise.v
theories/LpnScriptModel.v
theories/P_LpnScript.v
theories/LpnParamModel.v
theories/LpnParam.v
theories/P_LpnParam.v
theories/WeightProofs.v
theories/P_Decrypt.v
theories/SupmatScriptModel.v
theories/SupmatSearch.v
theories/SupmatScriptProofs.v
theories/SupmatBases.v
theories/BchBound.v
theories/P_SupmatScript.v
theories/Sub64File.v
theories/Shipped.v
theories/P_Shipped.v
theories/Never.v
theories/P_Runs.v
theories/P_History.v
theories/ParseSpec.v
theories/Parse.v
theories/P_Parse.v
theories/P_Readme.v
theories/P_Float.v
theories/P_Eval.v
theories/EstFullModel.v
theories/P_EstFull.v
theories/CostModel.v
theories/Cost.v
theories/P_Cost.v
theories/P_SaveStack.v
theories/FigureProofs.v
theories/P_Figure.v
theories/FigureStack.v
theories/StackExec.v
theories/P_FigureStack.v
